(** * Drawing on small f32 grids along lines that cross in grid points: f32 histories are
    exact, and planar if the requested segments are clear. *)
From Coq Require Import ZArith Reals List Bool Lia Lra Psatz Arith.
From Flocq Require Import Core.Core IEEE754.BinarySingleNaN.
From Verif Require Import Scalar Utils Polygon Graph GraphSpec PlaneSpec F32 Laws UtilsReal UtilsF32 PolyF32 PolyNewF32
  PlanarSpec GridSpec GridUtils GridSeg GraphAdd GraphAddProps GraphRemove GraphHistory GraphPlanar GraphReport GraphSim GridPrim GridOn.
Import ListNotations.
Local Open Scope R_scope.

(** ** Points and segments *)
Lemma f32_of_exact : forall m e, (Z.abs m <= 16777216)%Z -> (-149 <= e <= 103)%Z ->
  is_finite (f32_of m e) = true /\ B2R (f32_of m e) = IZR m * bpow radix2 e.
Proof.
  intros m e Hm He. pose proof (binary_normalize_correct 24 128 _ _ mode_NE m e false) as C. cbv zeta in C.
  replace (F2R (Float radix2 m e)) with (IZR m * bpow radix2 e) in C by (unfold F2R; reflexivity).
  destruct (representable m e Hm He) as [R1 R2].
  change (round radix2 (SpecFloat.fexp 24 128) (round_mode mode_NE) (IZR m * bpow radix2 e)) with (rnd32 (IZR m * bpow radix2 e)) in C.
  rewrite R1, Rlt_bool_true in C by exact R2. tauto.
Qed.

Lemma hull_abs : forall k l m M t, (Z.abs k <= M)%Z -> (Z.abs l <= M)%Z -> 0 <= t <= 1 ->
  IZR k + t * (IZR l - IZR k) = IZR m -> (Z.abs m <= M)%Z.
Proof.
  intros k l m M t Hk Hl Ht E. apply IZR_le in Hk. apply IZR_le in Hl. rewrite abs_IZR in Hk, Hl.
  apply le_IZR. rewrite abs_IZR, <- E. apply Rabs_le. apply Rabs_le_inv in Hk. apply Rabs_le_inv in Hl. split; nra.
Qed.

Lemma lattice_f32 : forall K e a b x m, (0 <= K <= 16777216)%Z -> (-149 <= e <= 103)%Z -> grid_le K e a -> grid_le K e b ->
  on_segment (toR a) (toR b) x -> x = P2 (IZR (fst m) * bpow radix2 e) (IZR (snd m) * bpow radix2 e) ->
  exists q, grid_le K e q /\ toR q = x.
Proof.
  intros K e a b x [mx my] HK He Ga Gb (t & Ht & E) ->. cbn [fst snd] in *.
  apply grid_le_at in Ga. destruct Ga as ([a1 a2] & [Wa1 Wa2] & Aa). apply grid_le_at in Gb. destruct Gb as ([b1 b2] & [Wb1 Wb2] & Ab).
  rewrite (toR_at _ _ _ Aa), (toR_at _ _ _ Ab) in E. unfold along in E; cbn [vx vy fst snd] in *.
  injection E as Ex Ey. assert (U : bpow radix2 e <> 0) by (apply Rgt_not_eq, bpow_gt_0).
  assert (Bx : (Z.abs mx <= K)%Z).
  { apply (hull_abs a1 b1 mx K t); try assumption. apply Rmult_eq_reg_r with (bpow radix2 e); [|exact U]. rewrite Ex. ring. }
  assert (By : (Z.abs my <= K)%Z).
  { apply (hull_abs a2 b2 my K t); try assumption. apply Rmult_eq_reg_r with (bpow radix2 e); [|exact U]. rewrite Ey. ring. }
  destruct (f32_of_exact mx e ltac:(lia) He) as [F1 E1]. destruct (f32_of_exact my e ltac:(lia) He) as [F2 E2].
  exists (P2 (f32_of mx e) (f32_of my e)). split.
  - split; cbn [vx vy]; (split; [assumption|eauto]).
  - unfold toR; cbn [vx vy]. now rewrite E1, E2.
Qed.

(** Two overlapping segments on one line: an end of one is inside the other, or they are
    the same segment. *)
Lemma overlap : forall a b s d x, cross a b s d = 0 -> inner s d x -> on_segment a b x -> x <> a -> x <> b ->
  inner s d a \/ inner s d b \/ inner a b s \/ inner a b d \/ (a = s /\ b = d) \/ (a = d /\ b = s).
Proof.
  assert (M : forall s d al xi be, s <> d -> al < xi < be -> 0 < xi < 1 ->
    let a := along s d al in let b := along s d be in
    inner s d a \/ inner s d b \/ inner a b s \/ inner a b d \/ (a = s /\ b = d)).
  { intros s d al xi be N Hx H01 a b.
    assert (I : forall u v, along s d u = along s d v -> u = v).
    { intros u v E. destruct s as [s1 s2], d as [d1 d2]. unfold along in E; cbn [vx vy] in E. injection E as E1 E2.
      destruct (Req_dec u v) as [Q|Q]; [exact Q|]. exfalso. apply N. f_equal.
      - assert (X : (u - v) * (d1 - s1) = 0) by lra. apply Rmult_integral in X. destruct X; lra.
      - assert (X : (u - v) * (d2 - s2) = 0) by lra. apply Rmult_integral in X. destruct X; lra. }
    assert (S0 : along s d 0 = s) by apply along_0. assert (D1 : along s d 1 = d) by apply along_1.
    assert (In1 : forall u, 0 < u < 1 -> inner s d (along s d u)).
    { intros u Hu. split; [exists u; split; [lra|reflexivity]|].
      split; intros E; [rewrite <- S0 in E at 2|rewrite <- D1 in E at 2]; apply I in E; lra. }
    assert (In2 : forall u, al < u < be -> inner a b (along s d u)).
    { intros u Hu. split.
      - exists ((u - al) / (be - al)). split.
        + split; [apply Rmult_le_pos; [lra|apply Rlt_le, Rinv_0_lt_compat; lra]|].
          apply Rmult_le_reg_r with (be - al); [lra|]. unfold Rdiv. rewrite Rmult_assoc, Rinv_l by lra. lra.
        + unfold a, b, along; cbn [vx vy]. f_equal; field; lra.
      - split; intros E; apply I in E; lra. }
    destruct (Rtotal_order al 0) as [L|[E|L]].
    - right. right. left. rewrite <- S0 at 1. apply In2. lra.
    - subst al. destruct (Rtotal_order be 1) as [L'|[E'|L']].
      + right. left. apply In1. lra.
      + subst be. right. right. right. right. split; assumption.
      + right. right. right. left. rewrite <- D1 at 1. apply In2. lra.
    - left. apply In1. lra. }
  intros a b s d x C (On & Ns & Nd) Onab Na Nb.
  assert (N : s <> d).
  { intros ->. destruct On as (t & _ & ->). apply Ns. unfold along. destruct d as [d1 d2]; cbn. f_equal; ring. }
  destruct On as (xi & Hxi & Ex). destruct Onab as (t & Ht & Et).
  assert (X0 : xi <> 0) by (intros ->; apply Ns; rewrite Ex; apply along_0).
  assert (X1 : xi <> 1) by (intros ->; apply Nd; rewrite Ex; apply along_1).
  assert (T0 : t <> 0) by (intros ->; apply Na; rewrite Et; apply along_0).
  assert (T1 : t <> 1) by (intros ->; apply Nb; rewrite Et; apply along_1).
  assert (Ea : exists al, a = along s d al).
  { apply collinear_along; [exact N|]. rewrite Ex in Et. destruct a as [a1 a2], b as [b1 b2], s as [s1 s2], d as [d1 d2].
    unfold along, cross in *; cbn [vx vy] in *. injection Et as E1 E2.
    replace a1 with (s1 + xi * (d1 - s1) - t * (b1 - a1)) at 1 by lra. replace a2 with (s2 + xi * (d2 - s2) - t * (b2 - a2)) by lra.
    replace ((d1 - s1) * (s2 + xi * (d2 - s2) - t * (b2 - a2) - s2) - (d2 - s2) * (s1 + xi * (d1 - s1) - t * (b1 - a1) - s1))
      with (t * ((b1 - a1) * (d2 - s2) - (b2 - a2) * (d1 - s1))) by ring. rewrite C. ring. }
  destruct Ea as (al & Ea).
  assert (Eb : exists be, b = along s d be /\ xi = al + t * (be - al)).
  { exists (al + (xi - al) / t). split; [|field; exact T0].
    rewrite Ex, Ea in Et. destruct b as [b1 b2], s as [s1 s2], d as [d1 d2].
    unfold along in *; cbn [vx vy] in *. injection Et as E1 E2. f_equal.
    - apply Rmult_eq_reg_l with t; [|exact T0].
      replace (t * (s1 + (al + (xi - al) / t) * (d1 - s1))) with (t * (s1 + al * (d1 - s1)) + (xi - al) * (d1 - s1)) by (field; exact T0). lra.
    - apply Rmult_eq_reg_l with t; [|exact T0].
      replace (t * (s2 + (al + (xi - al) / t) * (d2 - s2))) with (t * (s2 + al * (d2 - s2)) + (xi - al) * (d2 - s2)) by (field; exact T0). lra. }
  destruct Eb as (be & Eb & Exi).
  assert (A : al <> be).
  { intros ->. apply Na. rewrite Ex, Ea. f_equal. lra. }
  destruct (Rlt_le_dec al be) as [L|L].
  - destruct (M s d al xi be N) as [H|[H|[H|[H|H]]]]; [split; nra|lra|..]; rewrite <- ?Ea, <- ?Eb in H; tauto.
  - destruct (M s d be xi al N) as [H|[H|[H|[H|H]]]]; [split; nra|lra|..]; rewrite <- ?Ea, <- ?Eb in H.
    + tauto.
    + tauto.
    + do 2 right; left. destruct H as (O & N1 & N2). split; [now apply on_sym|tauto].
    + do 3 right; left. destruct H as (O & N1 & N2). split; [now apply on_sym|tauto].
    + tauto.
Qed.

(** ** A family of segments *)
Section Fam.
Context (lm : Libm) (e : Z) (He : (-22 <= e <= 51)%Z) {T U : Type} (dT : T).
Local Notation G := (grid_le 6 e).
Context (S : point -> point -> Prop).
Hypothesis HonS : forall a b p i, G a -> G b -> G p -> S (toR a) (toR b) ->
  (is_on_line_segment (O := FO lm) a b p i = true <-> inner (toR a) (toR b) (toR p)) /\
  (is_on_line_segment (O := XO) (up a) (up b) (up p) i = true <-> inner (toR a) (toR b) (toR p)).
Hypothesis Hlat : forall a b c d p, G a -> G b -> G c -> G d -> S (toR a) (toR b) -> S (toR c) (toR d) ->
  cross (toR a) (toR b) (toR c) (toR d) <> 0 -> on_segment (toR a) (toR b) p -> on_segment (toR c) (toR d) p ->
  exists m, p = P2 (IZR (fst m) * bpow radix2 e) (IZR (snd m) * bpow radix2 e).
Hypothesis HsplitS : forall a b p, S a b -> on_segment a b p -> S a p /\ S b p.

Local Notation graph := (PlanarGraph (FO lm) T U).
Let S' (a b : Vec2 (FO lm)) : Prop := S (toR a) (toR b).
Local Notation ins := (@inside (FO lm) T U G S').

Lemma fam_closest : forall (p : Vec2 (FO lm)) ps, G p -> Forall G ps ->
  fst (find_closest_to (up p) (map up ps)) = fst (find_closest_to (O := FO lm) p ps) /\
  olt (snd (find_closest_to (up p) (map up ps))) ceps = olt (snd (find_closest_to (O := FO lm) p ps)) ceps.
Proof. exact (grid_closest lm e He). Qed.
Lemma fam_on : forall (a b p : Vec2 (FO lm)) i, G a -> G b -> G p -> S' a b ->
  is_on_line_segment (up a) (up b) (up p) i = is_on_line_segment (O := FO lm) a b p i.
Proof.
  intros a b p i Ga Gb Gp Sab. destruct (HonS a b p i Ga Gb Gp Sab) as [H1 H2].
  apply eq_true_iff_eq. rewrite H2. symmetry. exact H1.
Qed.
Lemma fam_cross : forall (a b c d : Vec2 (FO lm)), G a -> G b -> G c -> G d -> S' a b -> S' c d ->
  calculate_line_segment_intersection (up a) (up b) (up c) (up d) =
    option_map up (calculate_line_segment_intersection (O := FO lm) a b c d) /\
  forall q, calculate_line_segment_intersection (O := FO lm) a b c d = Some q -> G q.
Proof.
  intros a b c d Ga Gb Gc Gd Sab Scd. apply (grid_cross lm e He a b c d Ga Gb Gc Gd).
  intros p. apply (Hlat a b c d p); assumption.
Qed.
Lemma fam_close : forall (a b : Vec2 (FO lm)), G a -> G b -> close_to (up a) (up b) = close_to (O := FO lm) a b.
Proof. exact (grid_close lm e He). Qed.
Lemma fam_split : forall (a b p : Vec2 (FO lm)) i, G a -> G b -> G p -> S' a b ->
  is_on_line_segment (O := FO lm) a b p i = true -> S' a p /\ S' b p.
Proof.
  intros a b p i Ga Gb Gp Sab H. apply HonS in H; try assumption. apply HsplitS; [exact Sab|exact (proj1 H)].
Qed.

Theorem fam_run : forall os (g : graph), ins g -> draws dT G S g os ->
  run dT (exact_graph g) (map exact_op os) = rmap exact_graph (run dT g os) /\
  forall g', run dT g os = Ok g' -> ins g'.
Proof.
  intros os g I D.
  apply (up_run (FO_laws lm) dT up G S' fam_closest fam_on fam_cross fam_close fam_split os g I).
  clear I. revert g D. induction os as [|o os IH]; intros g D; [exact Logic.I|].
  destruct D as [D1 D2]. split; [|intros g' H; apply IH; now apply D2].
  destruct o; exact D1.
Qed.

(** ** Single calls *)
Lemma fam_add_node : forall (g : graph) p d, ins g -> G p ->
  add_node (exact_graph g) (xp (real_point p)) d = rmap (fun r => (exact_graph (fst r), snd r)) (add_node g p d) /\
  forall g' r, add_node g p d = Ok (g', r) -> ins g'.
Proof. exact (up_add_node (FO_laws lm) up G S' fam_closest fam_on fam_split). Qed.
Lemma fam_add_edge : forall (g : graph) s d u, ins g -> draws_op G S g (OAddEdge s d u) ->
  add_edge dT (exact_graph g) s d u = rmap (fun r => (exact_graph (fst r), snd r)) (add_edge dT g s d u) /\
  forall g' r, add_edge dT g s d u = Ok (g', r) -> ins g'.
Proof. exact (up_add_edge (FO_laws lm) dT up G S' fam_closest fam_on fam_cross fam_close fam_split). Qed.
Lemma fam_remove_node : forall (g : graph) i,
  remove_node (exact_graph g) i = rmap (fun r => (exact_graph (fst r), snd r)) (remove_node g i).
Proof. exact (up_remove_node (O1 := FO lm) (O2 := XO) up). Qed.
Lemma fam_remove_edge : forall (g : graph) i,
  remove_edge (exact_graph g) i = rmap (fun r => (exact_graph (fst r), snd r)) (remove_edge g i).
Proof. exact (up_remove_edge (O1 := FO lm) (O2 := XO) up). Qed.
Lemma fam_step : forall (g : graph) o, ins g -> draws_op G S g o ->
  step dT (exact_graph g) (exact_op o) = rmap exact_graph (step dT g o) /\ forall g', step dT g o = Ok g' -> ins g'.
Proof.
  intros g o I D. apply (up_step (FO_laws lm) dT up G S' fam_closest fam_on fam_cross fam_close fam_split g o I).
  destruct o; exact D.
Qed.

(** ** Planarity *)
Lemma exact_drawn : forall g : graph, drawn (exact_graph g) (places g).
Proof. intros g. unfold drawn, places, exact_graph; cbn [nodes]. now rewrite !map_map. Qed.
Lemma places_length : forall g : graph, length (places g) = length (nodes g).
Proof. intros g. apply map_length. Qed.
Lemma place_at : forall (g : graph) i, (i < length (places g))%nat ->
  exists n, nth_error (nodes g) i = Some n /\ pt (places g) i = toR (position n).
Proof.
  intros g i Hi. rewrite places_length in Hi. apply nth_error_Some in Hi.
  destruct (nth_error (nodes g) i) as [n|] eqn:E; [|congruence]. exists n. split; [reflexivity|].
  unfold pt. apply nth_error_nth. exact (map_nth_error (fun n => real_point (position n)) i (nodes g) E).
Qed.

Lemma grid_far : forall p q, G p -> G q -> toR p <> toR q -> eps32 < dist (toR p) (toR q).
Proof.
  intros p q Gp Gq N. apply grid_le_at in Gp. destruct Gp as (kp & Wp & Ap). apply grid_le_at in Gq. destruct Gq as (kq & Wq & Aq).
  destruct (dist_range e _ _ _ _ Wp Wq Ap Aq) as [_ H]. specialize (H N).
  assert (eps32 < bpow radix2 e) by (apply bpow_lt; lia). lra.
Qed.

(** The needle of a segment of the family holds no other grid points. *)
Lemma near_inner : forall a b p, G a -> G b -> G p -> S (toR a) (toR b) -> near (toR a) (toR b) (toR p) ->
  inner (toR a) (toR b) (toR p).
Proof.
  intros a b p Ga Gb Gp Sab N. apply (proj2 (HonS a b p true Ga Gb Gp Sab)). apply on_segment_test.
  destruct N as (N1 & N2 & N3). repeat split; lra.
Qed.

Lemma place_grid : forall (g : graph) i, ins g -> (i < length (places g))%nat ->
  exists p, G p /\ pt (places g) i = toR p /\ exists n, nth_error (nodes g) i = Some n /\ p = position n.
Proof.
  intros g i I Hi. destruct (place_at g i Hi) as (n & Hn & E). exists (position n).
  split; [|split; [exact E|now exists n]]. destruct I as (_ & _ & OG & _). exact (@on_grid_nth (FO lm) T G (nodes g) i n OG Hn).
Qed.
Lemma edge_grid : forall (g : graph) f, ins g -> In f (edges g) ->
  exists a b, G a /\ G b /\ pt (places g) (src f) = toR a /\ pt (places g) (dst f) = toR b /\ S (toR a) (toR b) /\
    (src f < length (places g))%nat /\ (dst f < length (places g))%nat.
Proof.
  intros g f I Hf. pose proof I as (V & NL & OG & SG). destruct (V f Hf) as [V1 V2].
  destruct (place_grid g (src f) I) as (a & Ga & Ea & na & Na & ->); [now rewrite places_length|].
  destruct (place_grid g (dst f) I) as (b & Gb & Eb & nb & Nb & ->); [now rewrite places_length|].
  exists (position na), (position nb). rewrite !places_length. exact (conj Ga (conj Gb (conj Ea (conj Eb (conj (SG f na nb Hf Na Nb) (conj V1 V2)))))).
Qed.

Lemma good_grid : forall (g : graph) p, ins g -> G p -> good_place (places g) (edges g) (toR p).
Proof.
  intros g p I Gp. destruct (Classical_Prop.classic (exists k, (k < length (places g))%nat /\ pt (places g) k = toR p)) as [(k & Hk & E)|N].
  - left. exists k. split; [exact Hk|]. rewrite E, dist_self0. apply bpow_gt_0.
  - right. split.
    + intros k Hk. destruct (place_grid g k I Hk) as (q & Gq & E & _). rewrite E. apply grid_far; [assumption..|].
      intros Q. apply N. exists k. split; [exact Hk|]. now rewrite E.
    + intros f Hf Nf. destruct (edge_grid g f I Hf) as (a & b & Ga & Gb & Ea & Eb & Sab & _).
      unfold edge_near, edge_on in *. rewrite Ea, Eb in *. apply near_inner in Nf; try assumption. apply Nf.
Qed.

Lemma clear_general : forall (g : graph) s d, ins g -> well_drawn (places g) (edges g) ->
  (s < length (places g))%nat -> (d < length (places g))%nat ->
  S (pt (places g) s) (pt (places g) d) -> ~ adjacent g s d -> clear_path g s d ->
  general_position (places g) (edges g) s d.
Proof.
  intros g s d I W Hs Hd Ssd NA (C1 & C2).
  destruct (place_grid g s I Hs) as (ps & Gs & Es & _). destruct (place_grid g d I Hd) as (pd & Gd & Ed & _).
  set (P := places g) in *.
  (* inner points on an edge are grid points *)
  assert (L : forall f x, In f (edges g) -> edge_on P f x -> inner (pt P s) (pt P d) x ->
    (forall k, (k < length P)%nat -> x <> pt P k) -> exists q, G q /\ toR q = x).
  { intros f x Hf On Ix NK. destruct (edge_grid g f I Hf) as (a & b & Ga & Gb & Ea & Eb & Sab & Ls & Ld). fold P in Ea, Eb, Ls, Ld.
    unfold edge_on in On. rewrite Es, Ed in Ix, Ssd. rewrite Ea, Eb in On.
    destruct (Req_dec (cross (toR a) (toR b) (toR ps) (toR pd)) 0) as [Z|NZ].
    - exfalso. destruct W as (WV & WA & WN & WP & _).
      assert (Na : x <> toR a) by (rewrite <- Ea; now apply NK). assert (Nb : x <> toR b) by (rewrite <- Eb; now apply NK).
      assert (Inn : forall k, (k < length P)%nat -> ~ inner (toR a) (toR b) (pt P k)).
      { intros k Hk (O & N1 & N2). apply (WP k f Hk Hf).
        - intros [Tk|Tk]; rewrite <- Tk in *; [apply N1|apply N2]; assumption.
        - rewrite Ea, Eb. exact O. }
      destruct (overlap _ _ _ _ _ Z Ix On Na Nb) as [H|[H|[H|[H|H]]]].
      + apply (C1 (src f) Ls). rewrite Es, Ed, Ea. exact H.
      + apply (C1 (dst f) Ld). rewrite Es, Ed, Eb. exact H.
      + apply (Inn s Hs). rewrite Es. exact H.
      + apply (Inn d Hd). rewrite Ed. exact H.
      + assert (SI : forall i j, (i < length P)%nat -> (j < length P)%nat -> pt P i = pt P j -> i = j).
        { intros i j Hi Hj E. destruct (Nat.eq_dec i j) as [Q|Q]; [exact Q|]. pose proof (WA i j Hi Hj Q) as F.
          rewrite E, dist_self0 in F. pose proof eps32_pos. lra. }
        apply NA. exists f. split; [exact Hf|]. rewrite <- Ea, <- Eb, <- Es, <- Ed in H.
        destruct H as [[H1 H2]|[H1 H2]]; apply SI in H1; apply SI in H2; try assumption; [left|right]; split; congruence.
    - destruct (Hlat a b ps pd x Ga Gb Gs Gd Sab Ssd NZ On (proj1 Ix)) as (m & Em).
      apply (lattice_f32 6 e a b x m ltac:(lia) ltac:(lia) Ga Gb On Em). }
  split.
  - intros k Hk Nks Nkd N. apply (C1 k Hk). destruct (place_grid g k I Hk) as (q & Gq & Eq & _). fold P in Eq.
    rewrite Es, Ed, Eq in *. apply near_inner; assumption.
  - intros i f x Hf On Onx Ns Nd. assert (Hin : In f (edges g)) by (eapply nth_error_In; exact Hf).
    assert (Ix : inner (pt P s) (pt P d) x) by (split; [exact Onx|split; assumption]).
    destruct (C2 i f x Hf On Ix) as [K1 K2].
    destruct (L f x Hin On Ix K1) as (q & Gq & Eq).
    assert (FK : forall k, (k < length P)%nat -> eps32 < dist x (pt P k)).
    { intros k Hk. destruct (place_grid g k I Hk) as (r & Gr & Er & _). fold P in Er. rewrite Er, <- Eq. apply grid_far; [assumption..|].
      intros Q. apply (K1 k Hk). rewrite Er. congruence. }
    split; [exact FK|]. intros j h Nj Hh. assert (Hhin : In h (edges g)) by (eapply nth_error_In; exact Hh).
    pose proof (K2 j h Nj Hh) as NO. split.
    + intros NE. apply NO. destruct (edge_grid g h I Hhin) as (a & b & Ga & Gb & Ea & Eb & Sab & _). fold P in Ea, Eb.
      unfold edge_near, edge_on in *. rewrite Ea, Eb, <- Eq in *. apply near_inner in NE; try assumption. apply NE.
    + intros y Oy Oy'. assert (Nxy : x <> y) by (intros Q; apply NO; now rewrite Q).
      destruct (Classical_Prop.classic (exists k, (k < length P)%nat /\ y = pt P k)) as [(k & Hk & ->)|NK]; [now apply FK|].
      assert (NK' : forall k, (k < length P)%nat -> y <> pt P k) by (intros k Hk Q; apply NK; now exists k).
      destruct (L h y Hhin Oy) as (r & Gr & Er).
      * split; [exact Oy'|]. split; now apply NK'.
      * exact NK'.
      * rewrite <- Eq, <- Er. apply grid_far; [assumption..|]. congruence.
Qed.

Lemma fam_tidy : forall (g : graph) o, ins g -> well_drawn (places g) (edges g) -> draws_op G S g o -> clear_op g o ->
  tidy_op (exact_graph g) (exact_op o).
Proof.
  intros g o I W D C. destruct o as [p dd|s d u|i|i]; cbn [exact_op tidy_op]; try exact Logic.I.
  - exists (places g), (real_point p). split; [apply exact_drawn|]. split; [reflexivity|]. exact (good_grid g p I D).
  - destruct D as [N D]. split; [exact N|].
    destruct (Classical_Prop.classic (adjacent g s d)) as [A|NA]; [left; exact A|].
    destruct C as [A|[B|C]]; [contradiction|right; left|].
    { intros Q. apply B. unfold exact_graph in Q; cbn [nodes] in Q. rewrite map_length in Q. exact Q. }
    destruct (lt_dec s (length (nodes g))) as [Ls|Ls]; [|right; left; unfold exact_graph; cbn [nodes]; rewrite map_length; tauto].
    destruct (lt_dec d (length (nodes g))) as [Ld|Ld]; [|right; left; unfold exact_graph; cbn [nodes]; rewrite map_length; tauto].
    right. right. exists (places g). split; [apply exact_drawn|].
    rewrite <- places_length in Ls, Ld. apply clear_general; try assumption.
    destruct (place_at g s Ls) as (a & Ha & Ea). destruct (place_at g d Ld) as (b & Hb & Eb). rewrite Ea, Eb. exact (D a b Ha Hb).
Qed.

Lemma fam_step_planar : forall (g g' : graph) o, ins g -> well_drawn (places g) (edges g) -> draws_op G S g o -> clear_op g o ->
  step dT g o = Ok g' -> ins g' /\ well_drawn (places g') (edges g').
Proof.
  intros g g' o I W D C H. destruct (fam_step g o I D) as [E1 E2]. split; [exact (E2 g' H)|].
  rewrite H in E1. cbn [rmap] in E1.
  destruct (step_planar dT _ _ _ _ (exact_drawn g) W (fam_tidy g o I W D C) E1) as (ps' & D' & W').
  rewrite (drawn_fun _ _ _ D' (exact_drawn g')) in W'. exact W'.
Qed.

Lemma fam_planar : forall os (g g' : graph), ins g -> well_drawn (places g) (edges g) -> draws dT G S g os -> clears dT g os ->
  run dT g os = Ok g' -> ins g' /\ well_drawn (places g') (edges g').
Proof.
  induction os as [|o os IH]; intros g g' I W D C H.
  - inv H. split; assumption.
  - cbn [run] in H. apply bind_ok in H. destruct H as (g1 & H1 & H). destruct D as [D1 D2]. destruct C as [C1 C2].
    destruct (fam_step_planar g g1 o I W D1 C1 H1) as [I1 W1]. eapply IH; eauto.
Qed.

(** ** The picture *)
Lemma fam_edge_picture : forall (g g' : graph) s d u r, ins g -> well_drawn (places g) (edges g) ->
  draws_op G S g (OAddEdge s d u) -> clear_path g s d -> ~ adjacent g s d ->
  (s < node_count g)%nat -> (d < node_count g)%nat -> add_edge dT g s d u = Ok (g', r) ->
  (forall x, covers (places g') (edges g') x <-> covers (places g) (edges g) x \/ on_segment (pt (places g) s) (pt (places g) d) x) /\
  (forall ns es, r = AddOk ns es ->
    (forall i, In i es <-> (i < edge_count g')%nat /\ get_edge g' i <> get_edge g i) /\
    (forall k, In k ns <-> (node_count g <= k < node_count g')%nat) /\ In (edge_count g) es).
Proof.
  intros g g' s d u r I W D C NA Hs Hd H.
  pose proof D as [Nsd D2]. destruct (fam_add_edge g s d u I D) as [E _]. rewrite H in E. cbn [rmap fst snd] in E.
  assert (Ls : (s < length (places g))%nat) by (rewrite places_length; exact Hs).
  assert (Ld : (d < length (places g))%nat) by (rewrite places_length; exact Hd).
  assert (GP : general_position (places g) (edges g) s d).
  { apply clear_general; try assumption.
    destruct (place_at g s Ls) as (a & Ha & Ea). destruct (place_at g d Ld) as (b & Hb & Eb). rewrite Ea, Eb. exact (D2 a b Ha Hb). }
  split.
  - destruct (add_edge_planar dT _ _ _ _ _ _ _ (exact_drawn g) W GP Nsd NA Ls Ld E) as (qs & D' & W' & P & _).
    rewrite (drawn_fun _ _ _ D' (exact_drawn g')) in P. exact P.
  - intros ns es ->. pose proof (add_edge_reports dT _ _ _ _ _ _ _ _ (exact_drawn g) W GP Nsd NA Ls Ld E) as (R1 & R2 & R3).
    split; [exact R1|]. split; [|exact R3]. intros k. rewrite R2. unfold node_count, exact_graph; cbn [nodes]. now rewrite !map_length.
Qed.

Lemma fam_node_picture : forall (g g' : graph) p dd i ces, ins g -> well_drawn (places g) (edges g) -> G p ->
  add_node g p dd = Ok (g', (i, ces)) ->
  (forall x, covers (places g') (edges g') x <-> covers (places g) (edges g) x) /\
  (i < node_count g')%nat /\ pt (places g') i = real_point p.
Proof.
  intros g g' p dd i ces I W Gp H.
  destruct (fam_add_node g p dd I Gp) as [E I']. specialize (I' _ _ H). rewrite H in E. cbn [rmap fst snd] in E.
  destruct (add_node_planar _ _ _ _ _ _ _ (exact_drawn g) W (good_grid g p I Gp) E) as (qs & D' & W' & P & L & F).
  rewrite (drawn_fun _ _ _ D' (exact_drawn g')) in P, L, F. split; [exact P|].
  assert (Li : (i < node_count g')%nat) by (unfold node_count; rewrite <- places_length; exact L).
  split; [exact Li|].
  destruct (place_grid g' i I' L) as (q & Gq & Eq & _). rewrite Eq in *. change (real_point p) with (toR p).
  destruct (Classical_Prop.classic (toR q = toR p)) as [Q|Q]; [exact Q|].
  pose proof (grid_far p q Gp Gq (not_eq_sym Q)). lra.
Qed.

Lemma fam_planar_f32 : forall g : graph, ins g -> well_drawn (places g) (edges g) ->
  planar_f32 g /\ no_parallel g /\ no_loops g /\
  (forall i j, (i < node_count g)%nat -> (j < node_count g)%nat -> i <> j -> pt (places g) i <> pt (places g) j).
Proof.
  intros g I W. pose proof (planar_no_parallel (exact_graph g) (places g) W) as NP.
  pose proof (well_drawn_no_loops (exact_graph g) (places g) W) as NL.
  split; [|split; [exact NP|split; [exact NL|]]].
  - destruct W as (_ & _ & _ & P1 & P2). unfold planar_f32. rewrite places_length in P1.
    assert (E : forall i, real_point (pos_at (nodes g) i) = pt (places g) i).
    { intros i. unfold pos_at, pt. destruct (nth_error (nodes g) i) as [n|] eqn:En.
      - symmetry. apply nth_error_nth. exact (map_nth_error (fun n => real_point (position n)) i (nodes g) En).
      - rewrite nth_overflow; [|rewrite places_length; now apply nth_error_None].
        unfold real_point. cbn [vx vy]. f_equal; reflexivity. }
    split.
    + intros k f Hk Hf. rewrite !E. now apply P1.
    + intros i j ei ej x N Hi Hj. rewrite !E. intros O1 O2. destruct (P2 i j ei ej x N Hi Hj O1 O2) as (k & K1 & K2 & K3).
      exists k. rewrite E. auto.
  - intros i j Hi Hj N E. destruct W as (_ & WA & _). rewrite places_length in WA. specialize (WA i j Hi Hj N).
    rewrite E, dist_self0 in WA. pose proof eps32_pos. lra.
Qed.
End Fam.
