(** * Deciding for a given history that it draws on the grid and that its edges are clear
    (used by the examples only). *)
From Coq Require Import ZArith Reals List Bool Lia Lra Psatz Arith.
From Flocq Require Import Core.Core IEEE754.BinarySingleNaN.
From Verif Require Import Scalar Utils Polygon Graph GraphSpec PlaneSpec F32 Laws UtilsReal UtilsF32 PolyF32 PolyNewF32
  PlanarSpec GridSpec GridUtils GraphPlanar GridGraph.
Import ListNotations.
Local Open Scope R_scope.

Definition units : list Z := [-6; -5; -4; -3; -2; -1; 0; 1; 2; 3; 4; 5; 6]%Z.
Definition unit_of (e : Z) (x : f32) : option Z := find (fun k => Beqb x (f32_of k e)) units.
Definition place_of (e : Z) (p : Vec2 f32) : option (Z * Z) :=
  match unit_of e (vx p), unit_of e (vy p) with Some a, Some b => Some (a, b) | _, _ => None end.
Definition at_unit (e : Z) (k : Z * Z) : point := P2 (IZR (fst k) * bpow radix2 e) (IZR (snd k) * bpow radix2 e).

Lemma unit_of_ok : forall e x k, (-149 <= e <= 103)%Z -> unit_of e x = Some k ->
  (Z.abs k <= 6)%Z /\ is_finite x = true /\ B2R x = IZR k * bpow radix2 e.
Proof.
  intros e x k He H. apply find_some in H. destruct H as [Hin H].
  assert (Hk : (Z.abs k <= 6)%Z) by (cbn in Hin; lia).
  destruct (f32_of_exact k e ltac:(lia) He) as [F E].
  assert (Fx : is_finite x = true).
  { destruct x as [s|s| |s m ex p]; try reflexivity; exfalso; clear E; destruct (f32_of k e); try discriminate F; destruct s; discriminate H. }
  split; [exact Hk|]. split; [exact Fx|].
  destruct (cmp_exact x (f32_of k e) Fx F) as (_ & _ & Q). rewrite Q in H. apply Reqb_true in H. congruence.
Qed.

Lemma place_of_ok : forall e p k, (-149 <= e <= 103)%Z -> place_of e p = Some k ->
  grid_le 6 e p /\ within 6 k /\ real_point p = at_unit e k.
Proof.
  intros e p k He H. unfold place_of in H. destruct (unit_of e (vx p)) as [a|] eqn:Ea; [|discriminate].
  destruct (unit_of e (vy p)) as [b|] eqn:Eb; [|discriminate]. injection H as <-.
  apply unit_of_ok in Ea, Eb; try assumption. destruct Ea as (A1 & A2 & A3), Eb as (B1 & B2 & B3).
  split; [split; (split; [assumption|eauto])|]. split; [split; assumption|].
  unfold real_point, at_unit; cbn [fst snd]. now rewrite A3, B3.
Qed.

(** ** Lines *)
Definition axisb (k l : Z * Z) : bool := ((fst k =? fst l) || (snd k =? snd l))%Z.
Definition pleatb (k l : Z * Z) : bool :=
  axisb k l || ((fst k + snd k =? fst l + snd l) && Z.even (fst k + snd k))%Z ||
  ((fst k - snd k =? fst l - snd l) && Z.even (fst k - snd k))%Z.
Lemma axisb_ok : forall e k l, axisb k l = true -> axis (at_unit e k) (at_unit e l).
Proof.
  intros e k l H. unfold axisb in H. rewrite orb_true_iff, !Z.eqb_eq in H. unfold axis, at_unit; cbn [vx vy].
  destruct H as [-> | ->]; [now left|now right].
Qed.
Lemma pleatb_ok : forall e k l, pleatb k l = true -> pleat e (at_unit e k) (at_unit e l).
Proof.
  intros e k l H. unfold pleatb in H. rewrite !orb_true_iff, !andb_true_iff, !Z.eqb_eq, !Z.even_spec in H.
  destruct H as [[H|[H1 [c H2]]]|[H1 [c H2]]].
  - left. now apply axisb_ok.
  - right; left. unfold at_unit; cbn [vx vy]. rewrite <- !Rmult_plus_distr_r, <- !plus_IZR, H1. split; [reflexivity|].
    exists c. now rewrite <- H1, H2.
  - right; right. unfold at_unit; cbn [vx vy]. rewrite <- !Rmult_minus_distr_r, <- !minus_IZR, H1. split; [reflexivity|].
    exists c. now rewrite <- H1, H2.
Qed.

Section Check.
Context {lm : Libm} {T U : Type} (dT : T) (e : Z) (He : (-149 <= e <= 103)%Z).
Context (S : point -> point -> Prop) (Sb : Z * Z -> Z * Z -> bool).
Hypothesis HSb : forall k l, Sb k l = true -> S (at_unit e k) (at_unit e l).
Local Notation graph := (PlanarGraph (FO lm) T U).
Local Notation u := (bpow radix2 e).

Definition draws_opb (g : graph) (o : @op (FO lm) T U) : bool :=
  match o with
  | OAddNode p _ => match place_of e p with Some _ => true | None => false end
  | OAddEdge s d _ => negb (s =? d)%nat &&
      match get_vertex g s, get_vertex g d with
      | Some a, Some b => match place_of e (position a), place_of e (position b) with Some k, Some l => Sb k l | _, _ => false end
      | _, _ => true
      end
  | _ => true
  end.
Fixpoint drawsb (g : graph) (os : list (@op (FO lm) T U)) : bool :=
  match os with
  | [] => true
  | o :: os' => draws_opb g o && match step dT g o with Ok g' => drawsb g' os' | Panic => true end
  end.

Lemma drawsb_ok : forall os g, drawsb g os = true -> draws dT (grid_le 6 e) S g os.
Proof.
  induction os as [|o os IH]; intros g H; [exact Logic.I|]. cbn [drawsb] in H. apply andb_true_iff in H. destruct H as [H1 H2].
  split.
  - destruct o as [p dd|s d uu|i|i]; cbn [draws_op draws_opb] in *; try exact Logic.I.
    + destruct (place_of e p) eqn:E; [|discriminate]. apply place_of_ok in E; [|exact He]. apply E.
    + apply andb_true_iff in H1. destruct H1 as [N H1]. apply negb_true_iff, Nat.eqb_neq in N. split; [exact N|].
      intros a b Ha Hb. rewrite Ha, Hb in H1.
      destruct (place_of e (position a)) as [k|] eqn:Ea; [|discriminate]. destruct (place_of e (position b)) as [l|] eqn:Eb; [|discriminate].
      apply place_of_ok in Ea, Eb; try exact He. destruct Ea as (_ & _ & Ea), Eb as (_ & _ & Eb). rewrite Ea, Eb. now apply HSb.
  - intros g' Hg. rewrite Hg in H2. now apply IH.
Qed.

(** ** Clear segments *)
Definition zc (a b p : Z * Z) : Z := ((fst b - fst a) * (snd p - snd a) - (snd b - snd a) * (fst p - fst a))%Z.
Definition zon (a b p : Z * Z) : bool :=
  ((zc a b p =? 0) && (0 <=? (fst p - fst a) * (fst b - fst p) + (snd p - snd a) * (snd b - snd p)))%Z.
Definition keq (a b : Z * Z) : bool := ((fst a =? fst b) && (snd a =? snd b))%Z.
Definition box : list (Z * Z) := list_prod units units.

Definition kat (ks : list (Z * Z)) (i : nat) : Z * Z := nth i ks (0, 0)%Z.
Definition edge_clear (ks : list (Z * Z)) (es : list (Edge U)) (s d : Z * Z) (i : nat) (f : Edge U) : bool :=
  let a := kat ks (src f) in let b := kat ks (dst f) in
  (0 <? zc s d a * zc s d b)%Z || (0 <? zc a b s * zc a b d)%Z ||
  ((zc s d a =? 0)%Z && negb (zc s d b =? 0)%Z && (keq a s || keq a d)) ||
  ((zc s d b =? 0)%Z && negb (zc s d a =? 0)%Z && (keq b s || keq b d)) ||
  existsb (fun m => (zc s d m =? 0)%Z && (zc a b m =? 0)%Z &&
    negb ((fst b - fst a) * (snd d - snd s) - (snd b - snd a) * (fst d - fst s) =? 0)%Z &&
    forallb (fun k => negb (keq m k)) ks &&
    forallb (fun j => (j =? i)%nat || match nth_error es j with Some h => negb (zon (kat ks (src h)) (kat ks (dst h)) m) | None => true end)
      (seq 0 (length es))) box.
Definition clearb (ks : list (Z * Z)) (es : list (Edge U)) (s d : nat) : bool :=
  forallb (fun k => keq k (kat ks s) || keq k (kat ks d) || negb (zon (kat ks s) (kat ks d) k)) ks &&
  forallb (fun i => match nth_error es i with Some f => edge_clear ks es (kat ks s) (kat ks d) i f | None => true end) (seq 0 (length es)).

Lemma u_pos : 0 < u. Proof. apply bpow_gt_0. Qed.

Lemma at_cross : forall a b p, cross (at_unit e a) (at_unit e b) (at_unit e a) (at_unit e p) = IZR (zc a b p) * (u * u).
Proof. intros. unfold cross, at_unit, zc; cbn [vx vy]. rewrite minus_IZR, !mult_IZR, !minus_IZR. ring. Qed.

Lemma zon_ok : forall a b p, on_segment (at_unit e a) (at_unit e b) (at_unit e p) -> zon a b p = true.
Proof.
  intros a b p (t & Ht & E). pose proof u_pos as P. unfold zon. apply andb_true_iff.
  assert (E1 : IZR (fst p) - IZR (fst a) = t * (IZR (fst b) - IZR (fst a))).
  { unfold at_unit, along in E; cbn [vx vy] in E. injection E as E1 E2. apply Rmult_eq_reg_r with u; [|lra]. lra. }
  assert (E2 : IZR (snd p) - IZR (snd a) = t * (IZR (snd b) - IZR (snd a))).
  { unfold at_unit, along in E; cbn [vx vy] in E. injection E as _ E2. apply Rmult_eq_reg_r with u; [|lra]. lra. }
  split.
  - apply Z.eqb_eq. apply eq_IZR. unfold zc. rewrite minus_IZR, !mult_IZR, !minus_IZR, E1, E2. ring.
  - apply Z.leb_le. apply le_IZR. rewrite plus_IZR, !mult_IZR, !minus_IZR.
    replace (IZR (fst b) - IZR (fst p)) with ((1 - t) * (IZR (fst b) - IZR (fst a))) by lra.
    replace (IZR (snd b) - IZR (snd p)) with ((1 - t) * (IZR (snd b) - IZR (snd a))) by lra.
    rewrite E1, E2.
    replace (t * (IZR (fst b) - IZR (fst a)) * ((1 - t) * (IZR (fst b) - IZR (fst a))) + t * (IZR (snd b) - IZR (snd a)) * ((1 - t) * (IZR (snd b) - IZR (snd a))))
      with (t * (1 - t) * (Rsqr (IZR (fst b) - IZR (fst a)) + Rsqr (IZR (snd b) - IZR (snd a)))) by (unfold Rsqr; ring).
    apply Rmult_le_pos; [apply Rmult_le_pos; lra|]. pose proof (Rle_0_sqr (IZR (fst b) - IZR (fst a))). pose proof (Rle_0_sqr (IZR (snd b) - IZR (snd a))). lra.
Qed.

Lemma keq_ok : forall a b, keq a b = true <-> a = b.
Proof.
  intros [a1 a2] [b1 b2]. unfold keq; cbn [fst snd]. rewrite andb_true_iff, !Z.eqb_eq. split; [intros [-> ->]; reflexivity|intros E; injection E; auto].
Qed.
Lemma at_inj : forall a b, at_unit e a = at_unit e b -> a = b.
Proof.
  intros [a1 a2] [b1 b2] E. unfold at_unit in E; cbn [fst snd] in E. injection E as E1 E2. pose proof u_pos.
  apply Rmult_eq_reg_r in E1; [|lra]. apply Rmult_eq_reg_r in E2; [|lra]. apply eq_IZR in E1, E2. congruence.
Qed.

(** Signed areas along a segment. *)
Lemma cross_along : forall s d a b t, cross s d s (along a b t) = (1 - t) * cross s d s a + t * cross s d s b.
Proof. intros. unfold cross, along; cbn [vx vy]. ring. Qed.
Lemma on_cross : forall a b x, on_segment a b x -> cross a b a x = 0.
Proof. intros a b x (t & _ & ->). unfold cross, along; cbn [vx vy]. ring. Qed.
Lemma same_side : forall s d a b x, 0 < cross s d s a * cross s d s b -> on_segment a b x -> on_segment s d x -> False.
Proof.
  intros s d a b x H (t & Ht & ->) O. apply on_cross in O. rewrite cross_along in O.
  set (A := cross s d s a) in *. set (B := cross s d s b) in *. clearbody A B.
  assert (Q : (1 - t) * (A * A) + t * (A * B) = 0) by (replace ((1 - t) * (A * A) + t * (A * B)) with (A * ((1 - t) * A + t * B)) by ring; rewrite O; ring).
  assert (0 <= (1 - t) * (A * A)) by (apply Rmult_le_pos; [lra|apply Rle_0_sqr]).
  destruct (Req_dec t 0) as [->|N].
  - assert (A = 0) by lra. subst A. lra.
  - assert (0 < t * (A * B)) by (apply Rmult_lt_0_compat; lra). lra.
Qed.
Lemma meet_once : forall a b s d x y, cross a b s d <> 0 -> cross a b a x = 0 -> cross a b a y = 0 -> cross s d s x = 0 -> cross s d s y = 0 -> x = y.
Proof.
  intros [a1 a2] [b1 b2] [s1 s2] [d1 d2] [x1 x2] [y1 y2]. unfold cross; cbn [vx vy]. intros N H1 H2 H3 H4.
  assert (A1 : (b1 - a1) * (x2 - y2) - (b2 - a2) * (x1 - y1) = 0) by lra.
  assert (A2 : (d1 - s1) * (x2 - y2) - (d2 - s2) * (x1 - y1) = 0) by lra. clear H1 H2 H3 H4.
  assert (P : (b1 - a1) * (d2 - s2) - (b2 - a2) * (d1 - s1) <> 0) by exact N. clear N.
  assert (Q1 : x1 - y1 = 0).
  { apply Rmult_eq_reg_l with ((b1 - a1) * (d2 - s2) - (b2 - a2) * (d1 - s1)); [|exact P]. rewrite Rmult_0_r.
    replace (((b1 - a1) * (d2 - s2) - (b2 - a2) * (d1 - s1)) * (x1 - y1)) with
      ((d1 - s1) * ((b1 - a1) * (x2 - y2) - (b2 - a2) * (x1 - y1)) - (b1 - a1) * ((d1 - s1) * (x2 - y2) - (d2 - s2) * (x1 - y1))) by ring.
    rewrite A1, A2. ring. }
  assert (Q2 : x2 - y2 = 0).
  { apply Rmult_eq_reg_l with ((b1 - a1) * (d2 - s2) - (b2 - a2) * (d1 - s1)); [|exact P]. rewrite Rmult_0_r.
    replace (((b1 - a1) * (d2 - s2) - (b2 - a2) * (d1 - s1)) * (x2 - y2)) with
      ((d2 - s2) * ((b1 - a1) * (x2 - y2) - (b2 - a2) * (x1 - y1)) - (b2 - a2) * ((d1 - s1) * (x2 - y2) - (d2 - s2) * (x1 - y1))) by ring.
    rewrite A1, A2. ring. }
  f_equal; lra.
Qed.

Lemma clearb_ok : forall (g : graph) ks s d, map (at_unit e) ks = places g -> clearb ks (edges g) s d = true -> clear_path g s d.
Proof.
  intros g ks s d E H. unfold clearb in H. apply andb_true_iff in H. destruct H as [H1 H2].
  assert (PT : forall i, pt (places g) i = at_unit e (kat ks i)).
  { intros i. unfold pt, kat. rewrite <- E. replace (P2 0 0 : point) with (at_unit e (0, 0)%Z) by (unfold at_unit; cbn [fst snd]; f_equal; ring).
    apply map_nth. }
  pose proof u_pos as UP. assert (UU : 0 < u * u) by (apply Rmult_lt_0_compat; exact UP).
  rewrite forallb_forall in H1, H2.
  assert (KIN : forall k, (k < length (places g))%nat -> In (kat ks k) ks).
  { intros k Hk. apply nth_In. rewrite <- E, map_length in Hk. exact Hk. }
  split.
  - intros k Hk (O & Ns & Nd). rewrite (PT s), (PT d), (PT k) in O. rewrite (PT s), (PT k) in Ns. rewrite (PT d), (PT k) in Nd. specialize (H1 _ (KIN k Hk)). rewrite !orb_true_iff in H1.
    destruct H1 as [[Q|Q]|Q]; [apply keq_ok in Q; congruence|apply keq_ok in Q; congruence|].
    apply zon_ok in O. rewrite O in Q. discriminate.
  - intros i f x Hf On (Ox & Ns & Nd). rewrite (PT s), (PT d) in Ox. rewrite (PT s) in Ns. rewrite (PT d) in Nd. unfold edge_on in On. rewrite (PT (src f)), (PT (dst f)) in On.
    assert (Hi : In i (seq 0 (length (edges g)))) by (apply in_seq; split; [lia|]; rewrite Nat.add_0_l; apply nth_error_Some; intros Q0; rewrite Q0 in *; discriminate).
    specialize (H2 i Hi). rewrite Hf in H2. unfold edge_clear in H2.
    set (a := kat ks (src f)) in *. set (b := kat ks (dst f)) in *. set (ss := kat ks s) in *. set (dd := kat ks d) in *.
    rewrite !orb_true_iff in H2.
    assert (POS : forall z w, (0 < z * w)%Z -> 0 < IZR z * (u * u) * (IZR w * (u * u))).
    { intros z w Hzw. apply IZR_lt in Hzw. rewrite mult_IZR in Hzw.
      replace (IZR z * (u * u) * (IZR w * (u * u))) with (IZR z * IZR w * ((u * u) * (u * u))) by ring.
      apply Rmult_lt_0_compat; [exact Hzw|]. apply Rmult_lt_0_compat; exact UU. }
    assert (NZ : forall z, z <> 0%Z -> IZR z * (u * u) <> 0).
    { intros z Hz Q. apply Rmult_integral in Q. destruct Q as [Q|Q]; [|lra]. apply eq_IZR in Q. contradiction. }
    destruct H2 as [[[[H2|H2]|H2]|H2]|H2].
    + exfalso. apply Z.ltb_lt, POS in H2. rewrite <- !at_cross in H2. exact (same_side _ _ _ _ _ H2 On Ox).
    + exfalso. apply Z.ltb_lt, POS in H2. rewrite <- !at_cross in H2. exact (same_side _ _ _ _ _ H2 Ox On).
    + exfalso. rewrite !andb_true_iff, negb_true_iff, orb_true_iff, !keq_ok, Z.eqb_eq, Z.eqb_neq in H2. destruct H2 as [[Za Zb] Eq].
      apply NZ in Zb. rewrite <- at_cross in Zb. destruct On as (t & Ht & ->). apply on_cross in Ox. rewrite cross_along, at_cross, Za in Ox.
      assert (t = 0) by (apply Rmult_eq_reg_r with (cross (at_unit e ss) (at_unit e dd) (at_unit e ss) (at_unit e b)); [lra|exact Zb]).
      subst t. rewrite along_0 in Ns, Nd. destruct Eq as [Eq|Eq]; rewrite Eq in *; [now apply Ns|now apply Nd].
    + exfalso. rewrite !andb_true_iff, negb_true_iff, orb_true_iff, !keq_ok, Z.eqb_eq, Z.eqb_neq in H2. destruct H2 as [[Zb Za] Eq].
      apply NZ in Za. rewrite <- at_cross in Za. destruct On as (t & Ht & ->). apply on_cross in Ox. rewrite cross_along, (at_cross ss dd b), Zb in Ox.
      assert (1 - t = 0) by (apply Rmult_eq_reg_r with (cross (at_unit e ss) (at_unit e dd) (at_unit e ss) (at_unit e a)); [lra|exact Za]).
      replace t with 1 in * by lra. rewrite along_1 in Ns, Nd. destruct Eq as [Eq|Eq]; rewrite Eq in *; [now apply Ns|now apply Nd].
    + apply existsb_exists in H2. destruct H2 as (m & _ & H2). rewrite !andb_true_iff, !forallb_forall, negb_true_iff, !Z.eqb_eq, Z.eqb_neq in H2.
      destruct H2 as ((((M1 & M2) & M3) & M4) & M5).
      assert (Ex : x = at_unit e m).
      { apply (meet_once (at_unit e a) (at_unit e b) (at_unit e ss) (at_unit e dd)).
        - intros Q. apply (NZ _ M3). rewrite <- Q. unfold cross, at_unit; cbn [vx vy]. rewrite minus_IZR, !mult_IZR, !minus_IZR. ring.
        - now apply on_cross.
        - rewrite at_cross, M2. ring.
        - now apply on_cross.
        - rewrite at_cross, M1. ring. }
      subst x. split.
      * intros k Hk Q. rewrite PT in Q. apply at_inj in Q. specialize (M4 _ (KIN k Hk)). apply negb_true_iff in M4.
        rewrite (proj2 (keq_ok _ _) Q) in M4. discriminate.
      * intros j h Nj Hh Q. unfold edge_on in Q. rewrite (PT (src h)), (PT (dst h)) in Q. apply zon_ok in Q.
        assert (Hj : In j (seq 0 (length (edges g)))) by (apply in_seq; split; [lia|]; rewrite Nat.add_0_l; apply nth_error_Some; intros Q0; rewrite Q0 in *; discriminate).
        specialize (M5 j Hj). rewrite Hh, Q in M5. rewrite orb_false_r in M5. apply Nat.eqb_eq in M5. contradiction.
Qed.

Fixpoint all_places (ns : list (Node (FO lm) T)) : option (list (Z * Z)) :=
  match ns with
  | [] => Some []
  | n :: r => match place_of e (position n), all_places r with Some k, Some ks => Some (k :: ks) | _, _ => None end
  end.
Lemma all_places_ok : forall ns ks, all_places ns = Some ks -> map (at_unit e) ks = map (fun n => real_point (position n)) ns.
Proof.
  induction ns as [|n ns IH]; intros ks H; cbn [all_places] in H; [now injection H as <-|].
  destruct (place_of e (position n)) as [k|] eqn:Ek; [|discriminate]. destruct (all_places ns) as [l|]; [|discriminate]. injection H as <-.
  apply place_of_ok in Ek; [|exact He]. cbn [map]. rewrite (IH l eq_refl). f_equal. symmetry. apply Ek.
Qed.

Definition clear_opb (g : graph) (o : @op (FO lm) T U) : bool :=
  match o with
  | OAddEdge s d _ => match all_places (nodes g) with Some ks => clearb ks (edges g) s d | None => false end
  | _ => true
  end.
Fixpoint clearsb (g : graph) (os : list (@op (FO lm) T U)) : bool :=
  match os with
  | [] => true
  | o :: os' => clear_opb g o && match step dT g o with Ok g' => clearsb g' os' | Panic => true end
  end.
Lemma clearsb_ok : forall os g, clearsb g os = true -> clears dT g os.
Proof.
  induction os as [|o os IH]; intros g H; [exact Logic.I|]. cbn [clearsb] in H. apply andb_true_iff in H. destruct H as [H1 H2].
  split.
  - destruct o as [p dd|s d uu|i|i]; cbn [clear_op clear_opb] in *; try exact Logic.I.
    destruct (all_places (nodes g)) as [ks|] eqn:E; [|discriminate]. right; right.
    apply (clearb_ok g ks s d); [apply all_places_ok; exact E|exact H1].
  - intros g' Hg. rewrite Hg in H2. now apply IH.
Qed.
End Check.
