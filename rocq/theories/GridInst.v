(** * Two families of segments that cross in grid points: grid lines, and box pleating. *)
From Coq Require Import ZArith Reals List Bool Lia Lra Psatz Arith.
From Flocq Require Import Core.Core IEEE754.BinarySingleNaN.
From Verif Require Import Scalar Utils Polygon Graph GraphSpec PlaneSpec F32 Laws UtilsReal UtilsF32 PolyF32 PolyNewF32
  PlanarSpec GridSpec GridUtils GraphHistory GraphPlanar GraphSim GridPrim GridOn GridGraph.
Import ListNotations.
Local Open Scope R_scope.

Lemma axis_split : forall a b p, axis a b -> on_segment a b p -> axis a p /\ axis b p.
Proof.
  intros [a1 a2] [b1 b2] p H (t & _ & ->). unfold axis, along in *; cbn [vx vy] in *.
  destruct H as [->| ->]; [split; left; ring|split; right; ring].
Qed.
Lemma pleat_split : forall e a b p, pleat e a b -> on_segment a b p -> pleat e a p /\ pleat e b p.
Proof.
  intros e a b p [H|H] On.
  - destruct (axis_split a b p H On). split; now left.
  - destruct a as [a1 a2], b as [b1 b2]. destruct On as (t & _ & ->). unfold pleat, axis, along in *; cbn [vx vy] in *.
    destruct H as [(E & c & Ec)|(E & c & Ec)].
    + split; right; left; (split; [nra|exists c; lra]).
    + split; right; right; (split; [nra|exists c; lra]).
Qed.

(** A pleat is on one of the lines x = k, y = k, x + y = 2k, x - y = 2k (in grid units). *)
Lemma pleat_line : forall e a b p, grid_le 6 e a -> pleat e (toR a) b -> on_segment (toR a) b p ->
  let u := bpow radix2 e in exists k,
  (forall q, q = toR a \/ q = b \/ q = p -> vx q = IZR k * u) \/ (forall q, q = toR a \/ q = b \/ q = p -> vy q = IZR k * u) \/
  (forall q, q = toR a \/ q = b \/ q = p -> vx q + vy q = 2 * (IZR k * u)) \/
  (forall q, q = toR a \/ q = b \/ q = p -> vx q - vy q = 2 * (IZR k * u)).
Proof.
  intros e a b p Ga H (t & _ & Ep) u. apply grid_le_at in Ga. destruct Ga as ([k1 k2] & _ & Aa).
  rewrite (toR_at _ _ _ Aa) in *. fold u in Ep, H |- *. cbn [fst snd] in *.
  destruct b as [b1 b2]. unfold pleat, axis, along in *. cbn [vx vy] in *. subst p.
  destruct H as [[H|H]|[(E & c & Ec)|(E & c & Ec)]].
  - exists k1. left. intros q [->|[->| ->]]; cbn [vx vy]; try lra. rewrite <- H. ring.
  - exists k2. right; left. intros q [->|[->| ->]]; cbn [vx vy]; try lra. rewrite <- H. ring.
  - fold u in Ec. rewrite mult_IZR in Ec. exists c. right; right; left. intros q [->|[->| ->]]; cbn [vx vy]; [lra|lra|].
    assert (X : (b1 - IZR k1 * u) + (b2 - IZR k2 * u) = 0) by lra. nra.
  - fold u in Ec. rewrite mult_IZR in Ec. exists c. right; right; right. intros q [->|[->| ->]]; cbn [vx vy]; [lra|lra|].
    assert (X : (b1 - IZR k1 * u) - (b2 - IZR k2 * u) = 0) by lra. nra.
Qed.

Lemma pleat_lattice : forall e a b c d p, grid_le 6 e a -> grid_le 6 e b -> grid_le 6 e c -> grid_le 6 e d ->
  pleat e (toR a) (toR b) -> pleat e (toR c) (toR d) ->
  cross (toR a) (toR b) (toR c) (toR d) <> 0 -> on_segment (toR a) (toR b) p -> on_segment (toR c) (toR d) p ->
  exists m, p = P2 (IZR (fst m) * bpow radix2 e) (IZR (snd m) * bpow radix2 e).
Proof.
  intros e a b c d p Ga _ Gc _ S1 S2 N O1 O2.
  destruct (pleat_line e a (toR b) p Ga S1 O1) as (k & H). destruct (pleat_line e c (toR d) p Gc S2 O2) as (l & K).
  set (u := bpow radix2 e) in *.
  assert (Q : forall m, p = P2 (IZR (fst m) * u) (IZR (snd m) * u) <-> vx p = IZR (fst m) * u /\ vy p = IZR (snd m) * u).
  { intros m. destruct p as [p1 p2]; cbn [vx vy]. split; [intros E; injection E; auto|intros [-> ->]; reflexivity]. }
  assert (U : 0 < u) by apply bpow_gt_0.
  destruct H as [H|[H|[H|H]]]; destruct K as [K|[K|[K|K]]];
    pose proof (H _ (or_introl eq_refl)) as H1; pose proof (H _ (or_intror (or_introl eq_refl))) as H2;
    pose proof (H _ (or_intror (or_intror eq_refl))) as H3;
    pose proof (K _ (or_introl eq_refl)) as K1; pose proof (K _ (or_intror (or_introl eq_refl))) as K2;
    pose proof (K _ (or_intror (or_intror eq_refl))) as K3; clear H K.
  all: try (exfalso; apply N; unfold cross;
    set (ax := vx (toR a)) in *; set (ay := vy (toR a)) in *; set (bx := vx (toR b)) in *; set (by_ := vy (toR b)) in *;
    set (cx := vx (toR c)) in *; set (cy := vy (toR c)) in *; set (dx := vx (toR d)) in *; set (dy := vy (toR d)) in *;
    first [ replace (bx - ax) with 0 by lra; replace (dx - cx) with 0 by lra; ring
          | replace (by_ - ay) with 0 by lra; replace (dy - cy) with 0 by lra; ring
          | replace (by_ - ay) with (- (bx - ax)) by lra; replace (dy - cy) with (- (dx - cx)) by lra; ring
          | replace (by_ - ay) with (bx - ax) by lra; replace (dy - cy) with (dx - cx) by lra; ring ]).
  all: first [ exists (k, l); apply Q; cbn [fst snd]; split; lra
    | exists (l, k); apply Q; cbn [fst snd]; split; lra
    | exists (k, 2 * l - k)%Z; apply Q; cbn [fst snd]; rewrite minus_IZR, mult_IZR; split; lra
    | exists (k, k - 2 * l)%Z; apply Q; cbn [fst snd]; rewrite minus_IZR, mult_IZR; split; lra
    | exists (2 * l - k, k)%Z; apply Q; cbn [fst snd]; rewrite minus_IZR, mult_IZR; split; lra
    | exists (2 * l + k, k)%Z; apply Q; cbn [fst snd]; rewrite plus_IZR, mult_IZR; split; lra
    | exists (l, 2 * k - l)%Z; apply Q; cbn [fst snd]; rewrite minus_IZR, mult_IZR; split; lra
    | exists (l, l - 2 * k)%Z; apply Q; cbn [fst snd]; rewrite minus_IZR, mult_IZR; split; lra
    | exists (2 * k - l, l)%Z; apply Q; cbn [fst snd]; rewrite minus_IZR, mult_IZR; split; lra
    | exists (2 * k + l, l)%Z; apply Q; cbn [fst snd]; rewrite plus_IZR, mult_IZR; split; lra
    | exists (k + l, k - l)%Z; apply Q; cbn [fst snd]; rewrite minus_IZR, plus_IZR; split; lra
    | exists (k + l, l - k)%Z; apply Q; cbn [fst snd]; rewrite minus_IZR, plus_IZR; split; lra ].
Qed.

Lemma axis_lattice : forall e a b c d p, grid_le 6 e a -> grid_le 6 e b -> grid_le 6 e c -> grid_le 6 e d ->
  axis (toR a) (toR b) -> axis (toR c) (toR d) ->
  cross (toR a) (toR b) (toR c) (toR d) <> 0 -> on_segment (toR a) (toR b) p -> on_segment (toR c) (toR d) p ->
  exists m, p = P2 (IZR (fst m) * bpow radix2 e) (IZR (snd m) * bpow radix2 e).
Proof.
  intros e a b c d p Ga Gb Gc Gd S1 S2. apply (pleat_lattice e a b c d p); try assumption; now left.
Qed.

Lemma drawable_ok : forall e S, drawable e S -> (-22 <= e <= 51)%Z /\
  (forall lm a b p i, grid_le 6 e a -> grid_le 6 e b -> grid_le 6 e p -> S (toR a) (toR b) ->
    (is_on_line_segment (O := FO lm) a b p i = true <-> inner (toR a) (toR b) (toR p)) /\
    (is_on_line_segment (O := XO) (up a) (up b) (up p) i = true <-> inner (toR a) (toR b) (toR p))) /\
  (forall a b c d p, grid_le 6 e a -> grid_le 6 e b -> grid_le 6 e c -> grid_le 6 e d -> S (toR a) (toR b) -> S (toR c) (toR d) ->
    cross (toR a) (toR b) (toR c) (toR d) <> 0 -> on_segment (toR a) (toR b) p -> on_segment (toR c) (toR d) p ->
    exists m, p = P2 (IZR (fst m) * bpow radix2 e) (IZR (snd m) * bpow radix2 e)) /\
  (forall a b p, S a b -> on_segment a b p -> S a p /\ S b p).
Proof.
  intros e S [[He ->]|[He ->]].
  - split; [lia|]. split; [|split; [exact (axis_lattice e)|exact axis_split]].
    intros lm a b p i. apply (axis_on lm e); lia.
  - split; [lia|]. split; [|split; [exact (pleat_lattice e)|exact (pleat_split e)]].
    intros lm a b p i Ga Gb Gp _. apply (small_on lm e); try lia; assumption.
Qed.
