(** * Deciding for a given history that its edges are straight (used by the examples only). *)
From Coq Require Import ZArith Reals List Bool Lia Lra Arith.
From Flocq Require Import Core.Core IEEE754.BinarySingleNaN.
From Verif Require Import Scalar Utils Polygon Graph GraphSpec PlaneSpec F32 Laws UtilsReal UtilsF32 PolyF32 PolyNewF32
  PlanarSpec GridSpec GridUtils GraphPlanar GridGraph GridCheck ThroughSpec GridThroughSpec.
Import ListNotations.
Local Open Scope R_scope.

(** Two segments with a common end that leave it in opposite directions. *)
Lemma opposite_ends : forall a b s d m x : point, (m = a \/ m = b) -> (m = s \/ m = d) ->
  (vx a + vx b - 2 * vx m) * (vx s + vx d - 2 * vx m) + (vy a + vy b - 2 * vy m) * (vy s + vy d - 2 * vy m) < 0 ->
  on_segment a b x -> on_segment s d x -> x = m.
Proof.
  assert (END : forall a b m x : point, (m = a \/ m = b) -> on_segment a b x ->
    exists t, 0 <= t /\ vx x - vx m = t * (vx a + vx b - 2 * vx m) /\ vy x - vy m = t * (vy a + vy b - 2 * vy m)).
  { intros a b m x Hm (t & Ht & ->). unfold along; cbn [vx vy]. destruct Hm as [->| ->]; [exists t|exists (1 - t)]; (split; [lra|split; ring]). }
  intros a b s d m x M1 M2 D O1 O2. destruct (END a b m x M1 O1) as (t & Ht & X1 & Y1). destruct (END s d m x M2 O2) as (v & Hv & X2 & Y2).
  set (p := vx a + vx b - 2 * vx m) in *. set (q := vy a + vy b - 2 * vy m) in *.
  set (p' := vx s + vx d - 2 * vx m) in *. set (q' := vy s + vy d - 2 * vy m) in *.
  assert (Z : (vx x - vx m) * (vx x - vx m) + (vy x - vy m) * (vy x - vy m) = t * v * (p * p' + q * q')).
  { rewrite X1 at 1. rewrite X2 at 1. rewrite Y1 at 1. rewrite Y2 at 1. ring. }
  assert (0 <= t * v) by (now apply Rmult_le_pos).
  assert (vx x - vx m = 0 /\ vy x - vy m = 0) by (split; nra).
  destruct x as [x1 x2], m as [m1 m2]; cbn [vx vy] in *. f_equal; lra.
Qed.

Section Check.
Context {lm : Libm} {T U : Type} (dT : T) (e : Z) (He : (-149 <= e <= 103)%Z).
Local Notation graph := (PlanarGraph (FO lm) T U).
Local Notation u := (bpow radix2 e).

Definition edge_straight (ks : list (Z * Z)) (es : list (Edge U)) (s d : Z * Z) (i : nat) (f : Edge U) : bool :=
  let a := kat ks (src f) in let b := kat ks (dst f) in
  (0 <? zc s d a * zc s d b)%Z || (0 <? zc a b s * zc a b d)%Z ||
  existsb (fun m => (zc s d m =? 0)%Z && (zc a b m =? 0)%Z &&
    negb ((fst b - fst a) * (snd d - snd s) - (snd b - snd a) * (fst d - fst s) =? 0)%Z &&
    (existsb (keq m) ks ||
     forallb (fun j => (j =? i)%nat || match nth_error es j with Some h => negb (zon (kat ks (src h)) (kat ks (dst h)) m) | None => true end)
      (seq 0 (length es)))) box ||
  existsb (fun m => (keq m a || keq m b) && (keq m s || keq m d) &&
    ((fst a + fst b - 2 * fst m) * (fst s + fst d - 2 * fst m) + (snd a + snd b - 2 * snd m) * (snd s + snd d - 2 * snd m) <? 0)%Z) ks.
Definition straightb (ks : list (Z * Z)) (es : list (Edge U)) (s d : nat) : bool :=
  forallb (fun i => match nth_error es i with Some f => edge_straight ks es (kat ks s) (kat ks d) i f | None => true end) (seq 0 (length es)).
Definition endsb (ks : list (Z * Z)) (es : list (Edge U)) (s d : nat) : bool :=
  forallb (fun k => (k =? s)%nat || (k =? d)%nat || negb (zon (kat ks s) (kat ks d) (kat ks k)) || (degree_in es k =? 1)%nat) (seq 0 (length ks)).

Lemma place_kat : forall (g : graph) ks, map (at_unit e) ks = places g -> forall i, pt (places g) i = at_unit e (kat ks i).
Proof.
  intros g ks E i. unfold pt, kat. rewrite <- E. replace (P2 0 0 : point) with (at_unit e (0, 0)%Z) by (unfold at_unit; cbn [fst snd]; f_equal; ring).
  apply map_nth.
Qed.

Lemma edge_straight_ok : forall (g : graph) ks s d i f, map (at_unit e) ks = places g ->
  nth_error (edges g) i = Some f -> edge_straight ks (edges g) (kat ks s) (kat ks d) i f = true ->
  exists m, (forall x, edge_on (places g) f x -> on_segment (pt (places g) s) (pt (places g) d) x -> x = m) /\
    (forall x, edge_on (places g) f x -> on_segment (pt (places g) s) (pt (places g) d) x ->
     (exists k, (k < length (places g))%nat /\ x = pt (places g) k) \/
     forall j h, j <> i -> nth_error (edges g) j = Some h -> ~ edge_on (places g) h x).
Proof.
  intros g ks s d i f E Hf H. pose proof (place_kat g ks E) as PT.
  pose proof (u_pos e) as UP. assert (UU : 0 < u * u) by (apply Rmult_lt_0_compat; exact UP).
  unfold edge_on. rewrite (PT s), (PT d), (PT (src f)), (PT (dst f)).
  unfold edge_straight in H. set (a := kat ks (src f)) in *. set (b := kat ks (dst f)) in *. set (ss := kat ks s) in *. set (dd := kat ks d) in *.
  rewrite !orb_true_iff in H.
  assert (POS : forall z w, (0 < z * w)%Z -> 0 < IZR z * (u * u) * (IZR w * (u * u))).
  { intros z w Hzw. apply IZR_lt in Hzw. rewrite mult_IZR in Hzw.
    replace (IZR z * (u * u) * (IZR w * (u * u))) with (IZR z * IZR w * ((u * u) * (u * u))) by ring.
    apply Rmult_lt_0_compat; [exact Hzw|]. apply Rmult_lt_0_compat; exact UU. }
  assert (NZ : forall z, z <> 0%Z -> IZR z * (u * u) <> 0).
  { intros z Hz Q. apply Rmult_integral in Q. destruct Q as [Q|Q]; [|lra]. apply eq_IZR in Q. contradiction. }
  destruct H as [[[H|H]|H]|H].
  - apply Z.ltb_lt, POS in H. rewrite <- !(at_cross e) in H. exists (at_unit e ss).
    split; intros x On Ox; exfalso; exact (same_side _ _ _ _ _ H On Ox).
  - apply Z.ltb_lt, POS in H. rewrite <- !(at_cross e) in H. exists (at_unit e ss).
    split; intros x On Ox; exfalso; exact (same_side _ _ _ _ _ H Ox On).
  - apply existsb_exists in H. destruct H as (m & _ & H). rewrite !andb_true_iff, negb_true_iff, !Z.eqb_eq, Z.eqb_neq in H.
    destruct H as (((M1 & M2) & M3) & M4). exists (at_unit e m).
    assert (Ex : forall x, on_segment (at_unit e a) (at_unit e b) x -> on_segment (at_unit e ss) (at_unit e dd) x -> x = at_unit e m).
    { intros x On Ox. apply (meet_once (at_unit e a) (at_unit e b) (at_unit e ss) (at_unit e dd)).
      - intros Q. apply (NZ _ M3). rewrite <- Q. unfold cross, at_unit; cbn [vx vy]. rewrite minus_IZR, !mult_IZR, !minus_IZR. ring.
      - now apply on_cross.
      - rewrite (at_cross e), M2. ring.
      - now apply on_cross.
      - rewrite (at_cross e), M1. ring. }
    split; [exact Ex|]. intros x On Ox. rewrite (Ex x On Ox). apply orb_true_iff in M4. destruct M4 as [M4|M4].
    + left. apply existsb_exists in M4. destruct M4 as (k & Hk & Q). apply keq_ok in Q. subst k.
      apply (In_nth _ _ (0, 0)%Z) in Hk. destruct Hk as (j & Hj & Ej). exists j.
      split; [rewrite <- E, map_length; exact Hj|]. rewrite PT. unfold kat. now rewrite Ej.
    + right. rewrite forallb_forall in M4. intros j h Nj Hh Q. rewrite (PT (src h)), (PT (dst h)) in Q. apply (zon_ok e) in Q.
      assert (Hj : In j (seq 0 (length (edges g)))) by (apply in_seq; split; [lia|]; rewrite Nat.add_0_l; apply nth_error_Some; intros Q0; rewrite Q0 in *; discriminate).
      specialize (M4 j Hj). rewrite Hh, Q in M4. rewrite orb_false_r in M4. apply Nat.eqb_eq in M4. contradiction.
  - apply existsb_exists in H. destruct H as (m & Hk & H). rewrite !andb_true_iff, !orb_true_iff, Z.ltb_lt in H.
    destruct H as ((M1 & M2) & M3). exists (at_unit e m).
    assert (Ex : forall x, on_segment (at_unit e a) (at_unit e b) x -> on_segment (at_unit e ss) (at_unit e dd) x -> x = at_unit e m).
    { intros x. apply opposite_ends.
      - destruct M1 as [Q|Q]; apply keq_ok in Q; [left|right]; now rewrite Q.
      - destruct M2 as [Q|Q]; apply keq_ok in Q; [left|right]; now rewrite Q.
      - apply IZR_lt in M3. rewrite plus_IZR, !mult_IZR, !minus_IZR, !plus_IZR, !mult_IZR in M3. unfold at_unit; cbn [vx vy].
        match goal with |- ?L < 0 => replace L with ((u * u) * ((IZR (fst a) + IZR (fst b) - 2 * IZR (fst m)) * (IZR (fst ss) + IZR (fst dd) - 2 * IZR (fst m)) + (IZR (snd a) + IZR (snd b) - 2 * IZR (snd m)) * (IZR (snd ss) + IZR (snd dd) - 2 * IZR (snd m)))) by ring end.
        nra. }
    split; [exact Ex|]. intros x On Ox. left. rewrite (Ex x On Ox).
    apply (In_nth _ _ (0, 0)%Z) in Hk. destruct Hk as (j & Hj & Ej). exists j.
    split; [rewrite <- E, map_length; exact Hj|]. rewrite PT. unfold kat. now rewrite Ej.
Qed.

Lemma straightb_ok : forall (g : graph) ks s d, map (at_unit e) ks = places g -> straightb ks (edges g) s d = true -> straight_path g s d.
Proof.
  intros g ks s d E H. unfold straightb in H. rewrite forallb_forall in H.
  assert (K : forall i f, nth_error (edges g) i = Some f -> edge_straight ks (edges g) (kat ks s) (kat ks d) i f = true).
  { intros i f Hf. assert (Hi : In i (seq 0 (length (edges g)))) by (apply in_seq; split; [lia|]; rewrite Nat.add_0_l; apply nth_error_Some; intros Q0; rewrite Q0 in *; discriminate).
    specialize (H i Hi). now rewrite Hf in H. }
  split.
  - intros f x y Hf O1 O2 O3 O4. apply In_nth_error in Hf. destruct Hf as [i Hf].
    destruct (edge_straight_ok g ks s d i f E Hf (K i f Hf)) as (m & Q & _). now rewrite (Q x O1 O3), (Q y O2 O4).
  - intros i f x Hf O1 O2. destruct (edge_straight_ok g ks s d i f E Hf (K i f Hf)) as (m & _ & Q). now apply Q.
Qed.
Lemma endsb_ok : forall (g : graph) ks s d, map (at_unit e) ks = places g -> endsb ks (edges g) s d = true -> passes_ends g (places g) s d.
Proof.
  intros g ks s d E H k (Lk & N1 & N2 & O). unfold endsb in H. rewrite forallb_forall in H.
  assert (Hk : In k (seq 0 (length ks))) by (apply in_seq; rewrite <- E, map_length in Lk; lia).
  specialize (H k Hk). rewrite !(place_kat g ks E) in O. apply (zon_ok e) in O. rewrite O in H.
  rewrite !orb_true_iff, !Nat.eqb_eq in H. destruct H as [[[H|H]|H]|H]; [contradiction|contradiction|discriminate|exact H].
Qed.

Definition straight_opb (g : graph) (o : @op (FO lm) T U) : bool :=
  match o with
  | OAddEdge s d _ => match all_places e (nodes g) with Some ks => straightb ks (edges g) s d && endsb ks (edges g) s d | None => false end
  | _ => true
  end.
Fixpoint straightsb (g : graph) (os : list (@op (FO lm) T U)) : bool :=
  match os with
  | [] => true
  | o :: os' => straight_opb g o && match step dT g o with Ok g' => straightsb g' os' | Panic => true end
  end.
Lemma straightsb_ok : forall os g, straightsb g os = true -> straights dT g os.
Proof.
  induction os as [|o os IH]; intros g H; [exact Logic.I|]. cbn [straightsb] in H. apply andb_true_iff in H. destruct H as [H1 H2].
  split.
  - destruct o as [p dd|s d uu|i|i]; cbn [straight_op straight_opb] in *; try exact Logic.I.
    destruct (all_places e (nodes g)) as [ks|] eqn:E; [|discriminate]. right; right. apply andb_true_iff in H1. destruct H1 as [H1 H3].
    pose proof (all_places_ok e He _ _ E) as EP. split; [apply (straightb_ok g ks s d EP H1)|apply (endsb_ok g ks s d EP H3)].
  - intros g' Hg. rewrite Hg in H2. now apply IH.
Qed.
End Check.
