(** * Checking in integers that a drawing leaves room to spare, and following the exact
    program on it.  Points have integer coordinates in a unit [w], any positive real. *)
From Coq Require Import ZArith Reals Lia Lra Psatz List Bool Arith.
From Flocq Require Import Core.Core.
From Verif Require Import Scalar Utils Laws Graph ListSpec GraphSpec PlaneSpec PlanarSpec GridSpec GeoSpec GeoRound SimSpec
  GraphAdd GraphAddProps UtilsReal GeoOn GeoSeg GraphPlanar GraphReport GridGraph MarginSpec MarginReal MarginSeg MarginGraph MarginAdd Follow MarginSim Drift MarginDrift.
Import ListNotations.
Local Open Scope R_scope.

Lemma off_line : forall dl a b p, 0 < dist a b -> dl * dist a b <= Rabs (cross a b a p) -> off dl a b p.
Proof.
  intros dl a b p P H x (t & _ & ->). apply (Rmult_le_reg_r (dist a b)); [exact P|]. eapply Rle_trans; [exact H|].
  replace (cross a b a p) with (cross a b (along a b t) p) by (unfold cross, along; cbn [vx vy]; ring).
  eapply Rle_trans; [apply cross_le|]. rewrite (dist_sym p), Rmult_comm. apply Rle_refl.
Qed.
Lemma off_end : forall dl a b p, dot a b a p <= 0 -> dl <= dist p a -> off dl a b p.
Proof.
  intros dl a b p H Hd x (t & Ht & ->). eapply Rle_trans; [exact Hd|]. apply sq_le; [apply dist_nonneg|]. rewrite !dist_sq.
  unfold dot in H. unfold along. cbn [vx vy].
  assert (0 <= - t * ((vx b - vx a) * (vx p - vx a) + (vy b - vy a) * (vy p - vy a))) by (apply Ropp_le_cancel; nra).
  assert (0 <= (t * (vx b - vx a)) * (t * (vx b - vx a))) by apply Rle_0_sqr. assert (0 <= (t * (vy b - vy a)) * (t * (vy b - vy a))) by apply Rle_0_sqr. nra.
Qed.

Definition zpt : Type := (Z * Z)%type.
Definition zd (a b : zpt) : Z := ((fst b - fst a) * (fst b - fst a) + (snd b - snd a) * (snd b - snd a))%Z.
Definition zcr (a b c d : zpt) : Z := ((fst b - fst a) * (snd d - snd c) - (snd b - snd a) * (fst d - fst c))%Z.
Definition zdt (a b c d : zpt) : Z := ((fst b - fst a) * (fst d - fst c) + (snd b - snd a) * (snd d - snd c))%Z.
Definition zpt_at (zs : list zpt) (i : nat) : zpt := nth i zs (0, 0)%Z.

Section Prims.
Variables D K B : Z.
Definition z_far (a b : zpt) : bool := (D * D <=? zd a b)%Z.
Definition z_off (a b p : zpt) : bool :=
  ((0 <? zd a b) && (D * D * zd a b <=? zcr a b a p * zcr a b a p) ||
   (zdt a b a p <=? 0) && (D * D <=? zd p a) || (zdt b a b p <=? 0) && (D * D <=? zd p b))%Z.
Definition z_on (a b p : zpt) : bool := ((zcr a b a p =? 0) && (0 <=? zdt a b a p) && (zdt a b a p <=? zd a b) && (0 <? zd a b))%Z.
Definition z_beside (c d a b : zpt) : bool :=
  ((D * D * zd c d <=? zcr c d c a * zcr c d c a) && (D * D * zd c d <=? zcr c d c b * zcr c d c b) &&
   ((0 <=? zcr c d c a) && (0 <=? zcr c d c b) || (zcr c d c a <=? 0) && (zcr c d c b <=? 0)))%Z.
Definition z_well (a b c d : zpt) : bool :=
  (negb (zcr a b c d =? 0) && (1 <=? K * Z.abs (zcr a b c d)) && (zd a b * zd c d <=? (K * Z.abs (zcr a b c d) - 1) * (K * Z.abs (zcr a b c d) - 1)))%Z.
Definition z_box (p : zpt) : bool := ((Z.abs (fst p) <=? B) && (Z.abs (snd p) <=? B))%Z.
End Prims.

Section Real.
Variable w : R.
Hypothesis Pw : 0 < w.
Hypothesis Tw : bpow radix2 (-100) <= w * w.
Definition at_w (p : zpt) : point := P2 (IZR (fst p) * w) (IZR (snd p) * w).
Variables D K B : Z.
Hypothesis PD : (0 < D)%Z.
Hypothesis PK : (0 < K)%Z.
Let dl := IZR D * w.

Lemma w2 : 0 < w * w. Proof. now apply Rmult_lt_0_compat. Qed.
Lemma at_dist : forall a b, dist (at_w a) (at_w b) * dist (at_w a) (at_w b) = IZR (zd a b) * (w * w).
Proof. intros. rewrite dist_sq. unfold at_w, zd. cbn [vx vy]. rewrite plus_IZR, !mult_IZR, !minus_IZR. ring. Qed.
Lemma at_cross : forall a b c d, cross (at_w a) (at_w b) (at_w c) (at_w d) = IZR (zcr a b c d) * (w * w).
Proof. intros. unfold cross, at_w, zcr. cbn [vx vy]. rewrite minus_IZR, !mult_IZR, !minus_IZR. ring. Qed.
Lemma at_dot : forall a b c d, dot (at_w a) (at_w b) (at_w c) (at_w d) = IZR (zdt a b c d) * (w * w).
Proof. intros. unfold dot, at_w, zdt. cbn [vx vy]. rewrite plus_IZR, !mult_IZR, !minus_IZR. ring. Qed.
Lemma dl_pos : 0 < dl. Proof. unfold dl. apply Rmult_lt_0_compat; [now apply IZR_lt|exact Pw]. Qed.
Lemma at_far : forall a b, z_far D a b = true -> dl <= dist (at_w a) (at_w b).
Proof.
  intros a b H. apply Z.leb_le, IZR_le in H. rewrite mult_IZR in H. apply sq_le; [apply dist_nonneg|]. rewrite at_dist. unfold dl.
  replace (IZR D * w * (IZR D * w)) with (IZR D * IZR D * (w * w)) by ring. apply Rmult_le_compat_r; [pose proof w2; lra|exact H].
Qed.
Lemma at_pos : forall a b, (0 < zd a b)%Z -> 0 < dist (at_w a) (at_w b).
Proof.
  intros a b H. apply IZR_lt in H. pose proof (at_dist a b) as E. pose proof (dist_nonneg (at_w a) (at_w b)) as P.
  destruct (Rle_lt_or_eq_dec _ _ P) as [Q|Q]; [exact Q|]. rewrite <- Q, Rmult_0_l in E. pose proof (Rmult_lt_0_compat _ _ H w2). lra.
Qed.
(** Squares of lengths against cross products. *)
Lemma at_line : forall a b c d e f, (D * D * zd a b <= zcr c d e f * zcr c d e f)%Z -> dl * dist (at_w a) (at_w b) <= Rabs (cross (at_w c) (at_w d) (at_w e) (at_w f)).
Proof.
  intros a b c d e f H. apply IZR_le in H. rewrite !mult_IZR in H. apply sq_le; [apply Rabs_pos|].
  rewrite <- Rabs_mult, (Rabs_pos_eq (_ * _)) by apply Rle_0_sqr. rewrite at_cross.
  replace (dl * dist (at_w a) (at_w b) * (dl * dist (at_w a) (at_w b))) with (dl * dl * (dist (at_w a) (at_w b) * dist (at_w a) (at_w b))) by ring. rewrite at_dist. unfold dl.
  pose proof w2 as P2. assert (P4 : 0 <= w * w * (w * w)) by (apply Rmult_le_pos; lra).
  apply (Rmult_le_compat_r _ _ _ P4) in H. lra.
Qed.
Lemma at_off : forall a b p, z_off D a b p = true -> off dl (at_w a) (at_w b) (at_w p).
Proof.
  intros a b p H. unfold z_off in H. apply orb_true_iff in H. destruct H as [H|H]; [apply orb_true_iff in H; destruct H as [H|H]|]; apply andb_true_iff in H; destruct H as [H1 H2].
  - apply Z.ltb_lt in H1. apply Z.leb_le in H2. apply off_line; [now apply at_pos|now apply at_line].
  - apply off_end; [|now apply at_far]. rewrite at_dot. apply Z.leb_le, IZR_le in H1. pose proof w2. assert (0 <= - IZR (zdt a b a p) * (w * w)) by (apply Rmult_le_pos; lra). lra.
  - apply off_sym. apply off_end; [|now apply at_far]. rewrite at_dot. apply Z.leb_le, IZR_le in H1. pose proof w2. assert (0 <= - IZR (zdt b a b p) * (w * w)) by (apply Rmult_le_pos; lra). lra.
Qed.
Lemma at_on : forall a b p, z_on a b p = true -> on_segment (at_w a) (at_w b) (at_w p).
Proof.
  intros a b p H. unfold z_on in H. apply andb_true_iff in H. destruct H as [H H4]. apply andb_true_iff in H. destruct H as [H H3]. apply andb_true_iff in H. destruct H as [H1 H2].
  apply Z.eqb_eq in H1. apply Z.leb_le, IZR_le in H2, H3. apply Z.ltb_lt in H4. pose proof (IZR_lt _ _ H4) as H4'.
  exists (IZR (zdt a b a p) / IZR (zd a b)). split.
  - split; [apply Rmult_le_pos; [exact H2|left; now apply Rinv_0_lt_compat]|]. apply (Rmult_le_reg_r (IZR (zd a b))); [exact H4'|]. unfold Rdiv. rewrite Rmult_assoc, Rinv_l by lra. lra.
  - unfold along, at_w. cbn [vx vy].
    assert (E1 : ((fst p - fst a) * zd a b = zdt a b a p * (fst b - fst a))%Z).
    { apply Z.sub_move_0_r. transitivity (- (snd b - snd a) * zcr a b a p)%Z; [unfold zd, zdt, zcr; ring|rewrite H1; ring]. }
    assert (E2 : ((snd p - snd a) * zd a b = zdt a b a p * (snd b - snd a))%Z).
    { apply Z.sub_move_0_r. transitivity ((fst b - fst a) * zcr a b a p)%Z; [unfold zd, zdt, zcr; ring|rewrite H1; ring]. }
    apply (f_equal IZR) in E1, E2. rewrite !mult_IZR, !minus_IZR in E1, E2.
    apply (f_equal2 (@P2 R)).
    + replace (IZR (fst p) * w) with (IZR (fst a) * w + ((IZR (fst p) - IZR (fst a)) * IZR (zd a b)) / IZR (zd a b) * w) by (field; lra). rewrite E1. field. lra.
    + replace (IZR (snd p) * w) with (IZR (snd a) * w + ((IZR (snd p) - IZR (snd a)) * IZR (zd a b)) / IZR (zd a b) * w) by (field; lra). rewrite E2. field. lra.
Qed.
Lemma at_beside : forall c d a b, z_beside D c d a b = true -> beside dl (at_w c) (at_w d) (at_w a) (at_w b).
Proof.
  intros c d a b H. unfold z_beside in H. apply andb_true_iff in H. destruct H as [H S]. apply andb_true_iff in H. destruct H as [H1 H2]. apply Z.leb_le in H1, H2.
  pose proof (at_line c d c d c a H1) as L1. pose proof (at_line c d c d c b H2) as L2. pose proof w2 as P2.
  assert (Pos : forall z, (0 <= z)%Z -> 0 <= IZR z * (w * w)) by (intros z Hz; apply IZR_le in Hz; apply Rmult_le_pos; lra).
  assert (Neg : forall z, (z <= 0)%Z -> IZR z * (w * w) <= 0) by (intros z Hz; apply IZR_le in Hz; assert (0 <= - IZR z * (w * w)) by (apply Rmult_le_pos; lra); lra).
  apply orb_true_iff in S. destruct S as [S|S]; apply andb_true_iff in S; destruct S as [S1 S2]; apply Z.leb_le in S1, S2; [left|right].
  - apply Pos in S1, S2. rewrite <- at_cross in S1, S2. rewrite Rabs_pos_eq in L1, L2 by assumption. auto.
  - apply Neg in S1, S2. rewrite <- at_cross in S1, S2. rewrite Rabs_left1 in L1, L2 by assumption. lra.
Qed.
Lemma at_well : forall a b c d, z_well K a b c d = true ->
  cross (at_w a) (at_w b) (at_w c) (at_w d) <> 0 /\ cond (at_w a) (at_w b) (at_w c) (at_w d) <= IZR K.
Proof.
  intros a b c d H. unfold z_well in H. apply andb_true_iff in H. destruct H as [H H3]. apply andb_true_iff in H. destruct H as [H1 H2].
  apply negb_true_iff, Z.eqb_neq in H1. apply Z.leb_le in H2, H3. pose proof w2 as P2.
  assert (NZ : IZR (zcr a b c d) <> 0) by (intros Q; apply H1; now apply eq_IZR).
  assert (NZ' : cross (at_w a) (at_w b) (at_w c) (at_w d) <> 0) by (rewrite at_cross; apply Rmult_integral_contrapositive; split; [exact NZ|lra]).
  split; [exact NZ'|]. unfold cond. assert (Pc : 0 < Rabs (cross (at_w a) (at_w b) (at_w c) (at_w d))) by now apply Rabs_pos_lt.
  apply (Rmult_le_reg_r (Rabs (cross (at_w a) (at_w b) (at_w c) (at_w d)))); [exact Pc|]. unfold Rdiv. rewrite Rmult_assoc, Rinv_l, Rmult_1_r by lra.
  rewrite at_cross, Rabs_mult, (Rabs_pos_eq (w * w)) by lra. rewrite <- abs_IZR. set (z := Z.abs (zcr a b c d)) in *.
  apply IZR_le in H2, H3. rewrite !mult_IZR, !minus_IZR, !mult_IZR in *.
  assert (L : dist (at_w a) (at_w b) * dist (at_w c) (at_w d) <= (IZR K * IZR z - 1) * (w * w)).
  { apply sq_le; [apply Rmult_le_pos; lra|].
    replace (dist (at_w a) (at_w b) * dist (at_w c) (at_w d) * (dist (at_w a) (at_w b) * dist (at_w c) (at_w d))) with
      ((dist (at_w a) (at_w b) * dist (at_w a) (at_w b)) * (dist (at_w c) (at_w d) * dist (at_w c) (at_w d))) by ring.
    rewrite !at_dist. assert (P4 : 0 <= w * w * (w * w)) by (apply Rmult_le_pos; lra). apply (Rmult_le_compat_r _ _ _ P4) in H3. lra. }
  lra.
Qed.
Lemma at_box : forall p, z_box B p = true -> within (IZR B * w) (at_w p).
Proof.
  intros p H. unfold z_box in H. apply andb_true_iff in H. destruct H as [H1 H2]. apply Z.leb_le, IZR_le in H1, H2. rewrite abs_IZR in H1, H2.
  unfold within, at_w. cbn [vx vy]. rewrite !Rabs_mult, !(Rabs_pos_eq w) by lra. split; apply Rmult_le_compat_r; lra.
Qed.
Lemma at_pt : forall zs k, pt (map at_w zs) k = at_w (zpt_at zs k).
Proof.
  intros zs k. unfold pt, zpt_at. replace (P2 0 0) with (at_w (0, 0)%Z) by (unfold at_w; cbn [fst snd]; now rewrite !Rmult_0_l). apply map_nth.
Qed.

(** ** Drawings *)
Context {U : Type}.
Local Notation edge := (Edge U).
Definition touchb (k : nat) (e : edge) : bool := ((src e =? k) || (dst e =? k))%nat.
Definition z_spaced (zs : list zpt) (es : list edge) : bool :=
  forallb (fun e => negb (src e =? dst e)%nat && (src e <? length zs)%nat && (dst e <? length zs)%nat) es &&
  forallb (fun i => forallb (fun j => (i =? j)%nat || z_far D (zpt_at zs i) (zpt_at zs j)) (seq 0 (length zs))) (seq 0 (length zs)) &&
  forallb (fun k => forallb (fun e => touchb k e || z_off D (zpt_at zs (src e)) (zpt_at zs (dst e)) (zpt_at zs k)) es) (seq 0 (length zs)).
Lemma at_spaced : forall zs es, z_spaced zs es = true -> spaced dl (map at_w zs) es.
Proof.
  intros zs es H. unfold z_spaced in H. apply andb_true_iff in H. destruct H as [H H3]. apply andb_true_iff in H. destruct H as [H1 H2].
  rewrite forallb_forall in H1, H2, H3. unfold spaced. rewrite map_length. split; [|split].
  - intros e He. specialize (H1 e He). apply andb_true_iff in H1. destruct H1 as [H1 H1c]. apply andb_true_iff in H1. destruct H1 as [H1a H1b].
    apply negb_true_iff, Nat.eqb_neq in H1a. apply Nat.ltb_lt in H1b, H1c. auto.
  - intros i j Hi Hj N. rewrite !at_pt. assert (Ii : In i (seq 0 (length zs))) by (apply in_seq; lia). specialize (H2 i Ii). rewrite forallb_forall in H2.
    assert (Ij : In j (seq 0 (length zs))) by (apply in_seq; lia). specialize (H2 j Ij). apply orb_true_iff in H2. destruct H2 as [Q|Q]; [apply Nat.eqb_eq in Q; contradiction|now apply at_far].
  - intros k e Hk He NT. assert (Ik : In k (seq 0 (length zs))) by (apply in_seq; lia). specialize (H3 k Ik). rewrite forallb_forall in H3. specialize (H3 e He).
    apply orb_true_iff in H3. destruct H3 as [Q|Q].
    + exfalso. apply NT. unfold touchb in Q. apply orb_true_iff in Q. destruct Q as [Q|Q]; apply Nat.eqb_eq in Q; [now left|now right].
    + unfold edge_off. rewrite !at_pt. now apply at_off.
Qed.

Section New.
Variables (zs : list zpt) (es : list edge) (s d : nat).
Definition z_way : bool :=
  (negb (s =? d) && (s <? length zs) && (d <? length zs))%nat && negb (existsb (fun e => (src e =? s) && (dst e =? d) || (src e =? d) && (dst e =? s))%nat es) &&
  forallb (fun k => (k =? s)%nat || (k =? d)%nat || z_off D (zpt_at zs s) (zpt_at zs d) (zpt_at zs k)) (seq 0 (length zs)).
(** Edge number [i] does not cross the new segment ([None]), or does at the given point. *)
Definition z_pass (i : nat) (e : edge) (o : option zpt) : bool :=
  let a := zpt_at zs (src e) in let b := zpt_at zs (dst e) in let c := zpt_at zs s in let dd := zpt_at zs d in
  match o with
  | None => ((src e =? s) || (src e =? d) || (dst e =? s))%nat || ((dst e =? d)%nat && z_well K a b c dd) || z_beside D c dd a b || z_beside D a b c dd
  | Some x => z_well K a b c dd && z_on a b x && z_on c dd x &&
      forallb (fun k => z_far D x (zpt_at zs k)) (seq 0 (length zs)) &&
      forallb (fun jf => (fst jf =? i)%nat || z_off D (zpt_at zs (src (snd jf))) (zpt_at zs (dst (snd jf))) x) (combine (seq 0 (length es)) es)
  end.
Fixpoint z_pass_all (i : nat) (l : list edge) (os : list (option zpt)) : bool :=
  match l, os with
  | [], [] => true
  | e :: l', o :: os' => z_pass i e o && z_pass_all (S i) l' os'
  | _, _ => false
  end.
Variable depth : point -> nat.
Variable G : nat.
Variable os : list (option zpt).
Hypothesis Hw : z_way = true.
Hypothesis Hs : z_spaced zs es = true.
Hypothesis Ho : z_pass_all 0 es os = true.
Local Notation X := (map at_w zs).
Let Sp : spaced dl X es := at_spaced zs es Hs.

Lemma way_facts : s <> d /\ (s < length X)%nat /\ (d < length X)%nat /\ (~ exists e, In e es /\ joins s d e) /\
  (forall k, (k < length X)%nat -> k <> s -> k <> d -> off dl (pt X s) (pt X d) (pt X k)).
Proof.
  pose proof Hw as H. unfold z_way in H. apply andb_true_iff in H. destruct H as [H H3]. apply andb_true_iff in H. destruct H as [H H2].
  apply andb_true_iff in H. destruct H as [H Hd]. apply andb_true_iff in H. destruct H as [H1 Hs'].
  apply negb_true_iff, Nat.eqb_neq in H1. apply Nat.ltb_lt in Hs', Hd. apply negb_true_iff in H2. rewrite map_length.
  split; [exact H1|]. split; [exact Hs'|]. split; [exact Hd|]. split.
  - intros (e & He & J). assert (Q : existsb (fun e => (src e =? s) && (dst e =? d) || (src e =? d) && (dst e =? s))%nat es = true); [|congruence].
    apply existsb_exists. exists e. split; [exact He|]. unfold joins in J. destruct J as [[-> ->]|[-> ->]]; rewrite !Nat.eqb_refl; cbn; [reflexivity|apply orb_true_r].
  - intros k Hk N1 N2. rewrite forallb_forall in H3. assert (Ik : In k (seq 0 (length zs))) by (apply in_seq; lia). specialize (H3 k Ik).
    apply orb_true_iff in H3. destruct H3 as [Q|Q]; [apply orb_true_iff in Q; destruct Q as [Q|Q]; apply Nat.eqb_eq in Q; contradiction|]. rewrite !at_pt. now apply at_off.
Qed.
Lemma pass_nth : forall l i ps, z_pass_all i l ps = true -> length ps = length l /\ forall k e o, nth_error l k = Some e -> nth_error ps k = Some o -> z_pass (i + k) e o = true.
Proof.
  induction l as [|e l IH]; intros i [|o ps] H; cbn [z_pass_all] in H; try discriminate.
  - split; [reflexivity|]. intros [|k] e o Q; discriminate.
  - apply andb_true_iff in H. destruct H as [H1 H2]. destruct (IH (S i) ps H2) as [L Q]. split; [cbn; now rewrite L|].
    intros [|k] f o' E1 E2; cbn [nth_error] in *; [injection E1 as <-; injection E2 as <-; now rewrite Nat.add_0_r|]. rewrite Nat.add_succ_r. exact (Q k f o' E1 E2).
Qed.
Lemma os_len : length os = length es. Proof. exact (proj1 (pass_nth es 0 os Ho)). Qed.
Lemma os_pass : forall i e o, nth_error es i = Some e -> nth_error os i = Some o -> z_pass i e o = true.
Proof. exact (proj2 (pass_nth es 0 os Ho)). Qed.

Lemma pass_some : forall i e x, nth_error es i = Some e -> z_pass i e (Some x) = true ->
  (cross (pt X (src e)) (pt X (dst e)) (pt X s) (pt X d) <> 0 /\ cond (pt X (src e)) (pt X (dst e)) (pt X s) (pt X d) <= IZR K) /\
  edge_on X e (at_w x) /\ on_segment (pt X s) (pt X d) (at_w x) /\
  (forall k, (k < length X)%nat -> dl <= dist (at_w x) (pt X k)) /\
  (forall j f, j <> i -> nth_error es j = Some f -> edge_off dl X f (at_w x)).
Proof.
  intros i e x Hi H. cbn [z_pass] in H. apply andb_true_iff in H. destruct H as [H H5]. apply andb_true_iff in H. destruct H as [H H4].
  apply andb_true_iff in H. destruct H as [H H3]. apply andb_true_iff in H. destruct H as [H1 H2]. rewrite forallb_forall in H4, H5.
  unfold edge_on, edge_off. split; [rewrite !at_pt; now apply at_well|]. split; [rewrite !at_pt; now apply at_on|]. split; [rewrite !at_pt; now apply at_on|]. rewrite map_length. split.
  - intros k Hk. rewrite at_pt. apply at_far, H4, in_seq. lia.
  - intros j f N Hj. rewrite !at_pt. apply at_off. assert (Ij : In (j, f) (combine (seq 0 (length es)) es)).
    { apply (combine_nth _ _ _ _ j); [|exact Hj]. assert (Lj : (j < length es)%nat) by (apply nth_error_Some; congruence).
      rewrite (nth_error_nth' _ 0%nat) by (rewrite seq_length; exact Lj). now rewrite seq_nth. }
    specialize (H5 (j, f) Ij). cbn [fst snd] in H5. apply orb_true_iff in H5. destruct H5 as [Q|Q]; [apply Nat.eqb_eq in Q; contradiction|exact Q].
Qed.
Lemma pass_none : forall i e, z_pass i e None = true ->
  (src e = s \/ src e = d \/ dst e = s \/
   (dst e = d /\ cross (pt X (src e)) (pt X (dst e)) (pt X s) (pt X d) <> 0 /\ cond (pt X (src e)) (pt X (dst e)) (pt X s) (pt X d) <= IZR K)) \/
  beside dl (pt X s) (pt X d) (pt X (src e)) (pt X (dst e)) \/ beside dl (pt X (src e)) (pt X (dst e)) (pt X s) (pt X d).
Proof.
  intros i e H. cbn [z_pass] in H. rewrite !at_pt. apply orb_true_iff in H. destruct H as [H|H]; [|right; right; now apply at_beside].
  apply orb_true_iff in H. destruct H as [H|H]; [|right; left; now apply at_beside]. left.
  apply orb_true_iff in H. destruct H as [H|H].
  - apply orb_true_iff in H. destruct H as [H|H]; [apply orb_true_iff in H; destruct H as [H|H]|]; apply Nat.eqb_eq in H; auto.
  - apply andb_true_iff in H. destruct H as [H1 H2]. apply Nat.eqb_eq in H1. do 3 right. split; [exact H1|]. now apply at_well.
Qed.
Lemma check_way : clear_way dl (IZR K) X es s d.
Proof.
  split; [apply way_facts|]. intros i e Hi. unfold passes. destruct (nth_error os i) as [o|] eqn:Eo.
  - pose proof (os_pass i e o Hi Eo) as H. destruct o as [x|].
    + destruct (pass_some i e x Hi H) as (W & O1 & O2 & Far & Oth). do 6 right. split; [exact W|]. exists (at_w x). auto.
    + destruct (pass_none i e H) as [[Q|[Q|[Q|Q]]]|[Q|Q]]; tauto.
  - exfalso. apply nth_error_None in Eo. rewrite os_len in Eo. assert (i < length es)%nat by (apply nth_error_Some; congruence). lia.
Qed.
Variables (M H : R).
Hypothesis Fn : fine M H dl.
Lemma check_shape : forall i e o, nth_error es i = Some e -> nth_error (map (option_map at_w) os) i = Some o -> shape dl X es s d i e o.
Proof.
  intros i e o Hi Hoi. destruct way_facts as (Nsd & Ls & Ld & NA & Way). destruct (MarginGraph.map_nth_some _ _ _ _ _ _ Hoi) as (o' & Eo & <-). pose proof (os_pass i e o' Hi Eo) as P.
  pose proof dl_pos as Pd. pose proof (nth_error_In _ _ Hi) as He. destruct (proj1 Sp e He) as (Ne & L1 & L2).
  assert (Inj : forall i j, (i < length X)%nat -> (j < length X)%nat -> i <> j -> pt X i <> pt X j).
  { intros a b Ha Hb N E. pose proof (proj1 (proj2 Sp) a b Ha Hb N) as Q. rewrite E, dist_self0 in Q. lra. }
  destruct o' as [x|]; cbn [option_map shape].
  - destruct (pass_some i e x Hi P) as ((W & _) & O1 & O2 & Far & Oth). split; [exact O1|]. split; [exact O2|]. split; [exact Far|]. split; [exact Oth|].
    intros y H1 H2. symmetry. eapply segment_intersection_unique; [exact W| | | |]; apply on_segment_line; assumption.
  - intros y H1 H2. destruct (pass_none i e P) as [Q|[Q|Q]].
    + assert (Sh : exists k, touches k e /\ (k = s \/ k = d)).
      { destruct Q as [Q|[Q|[Q|[Q _]]]]; [exists s|exists d|exists s|exists d]; split; auto; solve [now left|now right]. }
      destruct Sh as (k & Tk & Hk). exists k. split; [exact Tk|]. split; [exact Hk|]. exact (share_apart U X es dl s d Pd Sp Nsd Ls Ld NA Way e k He Tk Hk y H1 H2).
    + exfalso. exact (beside_apart M H dl Fn _ _ _ _ y (Inj s d Ls Ld Nsd) Q H1 H2).
    + exfalso. exact (beside_apart M H dl Fn _ _ _ _ y (Inj _ _ L1 L2 Ne) Q H2 H1).
Qed.

(** What the exact program makes of it. *)
Context {T : Type} (dT : T).
Fixpoint z_split (zs : list zpt) (es : list edge) (xs : list zpt) : list edge :=
  match xs with
  | [] => es
  | x :: xs' => z_split (zs ++ [x]) (split_edges (fun e => z_on (zpt_at zs (src e)) (zpt_at zs (dst e)) x) (length zs) es) xs'
  end.
(** At every split each edge passes through the point, or is off it. *)
Fixpoint z_split_ok (zs : list zpt) (es : list edge) (xs : list zpt) : bool :=
  match xs with
  | [] => true
  | x :: xs' => forallb (fun e => z_on (zpt_at zs (src e)) (zpt_at zs (dst e)) x || z_off D (zpt_at zs (src e)) (zpt_at zs (dst e)) x) es &&
      z_split_ok (zs ++ [x]) (split_edges (fun e => z_on (zpt_at zs (src e)) (zpt_at zs (dst e)) x) (length zs) es) xs'
  end.
Lemma split_is : forall xs ys fs, z_split_ok ys fs xs = true -> exists rep, splits (map at_w ys) fs (map at_w xs) (z_split ys fs xs) rep.
Proof.
  induction xs as [|x xs IH]; intros ys fs Q; cbn [z_split z_split_ok map] in *; [exists []; constructor|].
  apply andb_true_iff in Q. destruct Q as [Q1 Q2]. destruct (IH _ _ Q2) as (rep & R1). eexists. econstructor.
  - instantiate (1 := fun e => z_on (zpt_at ys (src e)) (zpt_at ys (dst e)) x). intros e He. unfold edge_on. rewrite !at_pt. split; intros Z; [now apply at_on|].
    rewrite forallb_forall in Q1. specialize (Q1 e He). apply orb_true_iff in Q1. destruct Q1 as [Q1|Q1]; [exact Q1|]. exfalso.
    pose proof (at_off _ _ _ Q1 _ Z) as Y. rewrite dist_self0 in Y. pose proof dl_pos. lra.
  - rewrite map_app in R1. rewrite map_length. exact R1.
Qed.
Definition z_somes : list zpt := flat_map (fun o => match o with Some x => [x] | None => [] end) os.
Lemma somes_map : somes (map (option_map at_w) os) = map at_w z_somes.
Proof. unfold somes, z_somes. clear. induction os as [|[x|] l IH]; cbn; [reflexivity|now rewrite IH|exact IH]. Qed.
Lemma check_add_edge : forall (gx g1 : PlanarGraph XO T U) u r, nodes gx = map (fun x => MkNode (xp x) dT DEFAULT_LABEL) X -> edges gx = es -> boxed M X ->
  planar_drawing (pt X) (length X) es -> z_split_ok zs (es ++ [MkEdge s d u DEFAULT_LABEL]) z_somes = true ->
  add_edge dT gx s d u = Ok (g1, r) ->
  g1 = MkGraph (map (fun x => MkNode (xp x) dT DEFAULT_LABEL) (map at_w (zs ++ z_somes))) (z_split zs (es ++ [MkEdge s d u DEFAULT_LABEL]) z_somes) /\
  planar_drawing (pt (map at_w (zs ++ z_somes))) (length (map at_w (zs ++ z_somes))) (edges g1).
Proof.
  intros gx g1 u r En Ee Bx Pl Zo Ha. destruct way_facts as (Nsd & Ls & Ld & NA & Way).
  assert (D0 : drawn gx X) by (unfold drawn; rewrite En, !map_map; apply map_ext; reflexivity).
  assert (Pr : ForallOrdPairs (meet X []) (edges gx)).
  { rewrite Ee. apply (pairs_nth _ (meet_sym X [])). intros i j e f N Hi Hj x H1 H2. left. exact (proj2 Pl i j e f x N Hi Hj H1 H2). }
  pose proof Sp as Sp'. pose proof check_shape as Sh. pose proof os_len as Lo. rewrite <- Ee in Sp', Sh, NA, Lo. rewrite <- (map_length (option_map at_w) os) in Lo.
  assert (RX : relX M gx X) by (split; assumption).
  assert (AnX : forall i e o, nth_error (edges gx) i = Some e -> nth_error (map (option_map at_w) os) i = Some o -> answers (forX M) gx X s d e o).
  { intros i e o Hi Hoi. exact (X_answers M H dl Fn gx X s d i e o RX Sp' Nsd Ls Ld Hi (Sh i e o Hi Hoi)). }
  destruct (follow_add_edge XO_laws dT M H dl Fn (relX M) (forX M) (X_len M) (X_box M) (X_nodes M) (X_new M) (X_near M) (X_far M H dl Fn) (X_off M H dl Fn) (X_on M H dl Fn) (X_close M H dl Fn)
    gx X s d RX Sp' Pr Nsd NA Ls Ld Way _ Lo Sh AnX u g1 r Ha) as (rep & qx & S2 & _ & N2 & Q2 & R2 & I2 & _).
  rewrite somes_map in *. destruct (split_is z_somes zs _ Zo) as (rep' & S1). rewrite Ee in S2. destruct (splits_fun _ _ _ _ _ S2 _ _ S1) as [E1 _].
  rewrite map_app. split.
  - destruct g1 as [ns es']. cbn [nodes edges] in *. f_equal; [|exact E1]. rewrite N2, En, map_app. f_equal.
    clear - Q2. induction Q2 as [|q x ql xl ((-> & _) & _) _ IH]; [reflexivity|]. cbn [map]. now rewrite IH.
  - exact (proj2 (proj2 (proj2 (inv_planar _ _ (minv_inv M H dl Fn _ _ _ (proj2 R2) I2))))).
Qed.
End New.
End Real.

(** ** Histories.  [deep] lists the crossings with their depth; all other points have depth 0. *)
Section Steps.
Context {lm : Libm}.
Variable w : R.
Hypothesis Pw : 0 < w.
Hypothesis Tw : bpow radix2 (-100) <= w * w.
Variables D K B : Z.
Hypothesis PD : (0 < D)%Z.
Variables (M H : R) (G : nat).
Local Notation dl := (IZR D * w).
Hypothesis St : steady M (IZR K) dl H G.
Hypothesis BM : IZR B * w <= M - slip M H.
Variable deep : list (zpt * nat).

Definition z_same (a b : zpt) : bool := ((fst a =? fst b) && (snd a =? snd b))%Z.
Definition depth_z (p : zpt) : nat := match find (fun q => z_same p (fst q)) deep with Some q => snd q | None => 0%nat end.
Definition made_at (p : point) (z : zpt) : bool :=
  match Req_EM_T (vx p) (IZR (fst z) * w), Req_EM_T (vy p) (IZR (snd z) * w) with left _, left _ => true | _, _ => false end.
Definition depth_at (p : point) : nat := match find (fun q => made_at p (fst q)) deep with Some q => snd q | None => 0%nat end.
Lemma made_same : forall a b, made_at (at_w w a) b = z_same a b.
Proof.
  intros [a1 a2] [b1 b2]. unfold made_at, z_same, at_w. cbn [vx vy fst snd].
  assert (Z : forall x y, (x =? y)%Z = true <-> IZR x * w = IZR y * w).
  { intros x y. rewrite Z.eqb_eq. split; [now intros ->|]. intros E. apply Rmult_eq_reg_r in E; [|lra]. now apply eq_IZR. }
  destruct (Req_EM_T (IZR a1 * w) (IZR b1 * w)) as [E1|E1].
  - rewrite (proj2 (Z a1 b1) E1). destruct (Req_EM_T (IZR a2 * w) (IZR b2 * w)) as [E2|E2]; [now rewrite (proj2 (Z a2 b2) E2)|].
    destruct (a2 =? b2)%Z eqn:Q; [|reflexivity]. exfalso. now apply E2, Z.
  - destruct (a1 =? b1)%Z eqn:Q; [|reflexivity]. exfalso. now apply E1, Z.
Qed.
Lemma depth_same : forall z, depth_at (at_w w z) = depth_z z.
Proof.
  intros z. unfold depth_at, depth_z. induction deep as [|q l IH]; [reflexivity|]. cbn [find]. rewrite made_same. destruct (z_same z (fst q)); [reflexivity|exact IH].
Qed.

Let Fn : fine M H dl := steady_fine _ _ _ _ _ St.
Lemma box_in : forall zs, forallb (z_box B) zs = true -> forall p, In p (map (at_w w) zs) -> within (M - slip M H) p.
Proof.
  intros zs Hb p Hp. apply in_map_iff in Hp. destruct Hp as (z & <- & Hz). rewrite forallb_forall in Hb.
  destruct (at_box w Pw B z (Hb z Hz)) as [B1 B2]. split; [exact (Rle_trans _ _ _ B1 BM)|exact (Rle_trans _ _ _ B2 BM)].
Qed.
Lemma box_M_in : forall zs, forallb (z_box B) zs = true -> boxed M (map (at_w w) zs).
Proof. intros zs Hb p Hp. destruct (box_in zs Hb p Hp) as [B1 B2]. destruct (margins M H dl Fn) as (H0 & _). split; lra. Qed.
(** Crossings are deeper than the ends of what crosses. *)
Definition z_climbs {U} (zs : list zpt) (es : list (Edge U)) (s d : nat) (os : list (option zpt)) : bool :=
  forallb (fun eo => match snd eo with
    | None => true
    | Some x => (depth_z x <=? G)%nat && forallb (fun k => (depth_z (zpt_at zs k) <? depth_z x)%nat) [s; d; src (fst eo); dst (fst eo)]
    end) (combine es os).

(** The graph that the exact program holds. *)
Context {T U : Type} (dT : T).
Definition holds (gx : PlanarGraph XO T U) (zs : list zpt) (es : list (Edge U)) : Prop :=
  nodes gx = map (fun x => MkNode (xp x) dT DEFAULT_LABEL) (map (at_w w) zs) /\ edges gx = es /\
  planar_drawing (pt (map (at_w w) zs)) (length (map (at_w w) zs)) es.
Lemma holds_drawn : forall gx zs es, holds gx zs es -> drawn gx (map (at_w w) zs).
Proof. intros gx zs es (En & _). unfold drawn. rewrite En, !map_map. apply map_ext. reflexivity. Qed.

Section Step.
Variables (zs : list zpt) (es : list (Edge U)) (s d : nat) (u : U) (os : list (option zpt)).
(** All the checks for one call of add_edge. *)
Definition z_call : bool :=
  z_way D zs es s d && z_spaced D zs es && z_pass_all D K zs es s d 0 es os && forallb (z_box B) zs && z_climbs zs es s d os &&
  z_split_ok D zs (es ++ [MkEdge s d u DEFAULT_LABEL]) (z_somes os).
Hypothesis Hc : z_call = true.
Local Notation X := (map (at_w w) zs).
Lemma call_checks : z_way D zs es s d = true /\ z_spaced D zs es = true /\ z_pass_all D K zs es s d 0 es os = true /\ forallb (z_box B) zs = true /\ z_climbs zs es s d os = true /\
  z_split_ok D zs (es ++ [MkEdge s d u DEFAULT_LABEL]) (z_somes os) = true.
Proof. pose proof Hc as Q. unfold z_call in Q. rewrite !andb_true_iff in Q. tauto. Qed.
Lemma step_climbs : climbs G depth_at X es s d.
Proof.
  destruct call_checks as (Hw & Hs & Ho & Hb & Hk & _). intros e x He O1 O2 Nx. destruct (In_nth_error _ _ He) as (i & Hi).
  destruct (nth_error os i) as [o|] eqn:Eo.
  2: { exfalso. apply nth_error_None in Eo. rewrite (os_len D K zs es s d os Ho) in Eo. assert (i < length es)%nat by (apply nth_error_Some; congruence). lia. }
  assert (Sh : shape dl X es s d i e (option_map (at_w w) o)).
  { apply (check_shape w Pw Tw D K PD zs es s d os Hw Hs Ho M H Fn i e); [exact Hi|]. now apply map_nth_error. }
  destruct o as [z|]; cbn [option_map shape] in Sh.
  - destruct Sh as (_ & _ & _ & _ & Un). rewrite (Un x O1 O2), depth_same.
    assert (Ic : In (e, Some z) (combine es os)) by exact (combine_nth _ _ _ _ i _ _ Hi Eo).
    unfold z_climbs in Hk. rewrite forallb_forall in Hk. specialize (Hk _ Ic). cbn [fst snd] in Hk. apply andb_true_iff in Hk. destruct Hk as [H1 H2]. apply Nat.leb_le in H1.
    rewrite forallb_forall in H2. split; [exact H1|]. intros k Hk. rewrite at_pt, depth_same. apply Nat.ltb_lt, H2. unfold touches in Hk. cbn [In].
    destruct Hk as [-> | [-> | [<- | <-]]]; auto.
  - exfalso. destruct (Sh x O1 O2) as (k & Tk & _ & E). destruct (proj1 (at_spaced w Pw D zs es Hs) e He) as (_ & L1 & L2).
    apply (Nx k); [destruct Tk as [<-|<-]; assumption|exact E].
Qed.
Lemma call_result : forall gx g1 r, holds gx zs es -> add_edge dT gx s d u = Ok (g1, r) -> holds g1 (zs ++ z_somes os) (z_split zs (es ++ [MkEdge s d u DEFAULT_LABEL]) (z_somes os)).
Proof.
  intros gx g1 r (En & Ee & Pl) Ha. destruct call_checks as (Hw & Hs & Ho & Hb & _ & Zo).
  destruct (check_add_edge w Pw Tw D K PD zs es s d os Hw Hs Ho M H Fn dT gx g1 u r En Ee (box_M_in zs Hb) Pl Zo Ha) as [E P'].
  split; [now rewrite E|]. split; [now rewrite E|]. rewrite E in P' at 1. exact P'.
Qed.
Lemma calm_edge : forall gx rest, holds gx zs es ->
  (forall g1, holds g1 (zs ++ z_somes os) (z_split zs (es ++ [MkEdge s d u DEFAULT_LABEL]) (z_somes os)) -> calm (lm := lm) dT M (IZR K) dl H G depth_at g1 rest) ->
  calm (lm := lm) dT M (IZR K) dl H G depth_at gx (OAddEdge s d u :: rest).
Proof.
  intros gx rest Hh Next. destruct call_checks as (Hw & Hs & Ho & Hb & _ & Zo). cbn [calm]. split.
  - exists X. split; [exact (holds_drawn _ _ _ Hh)|]. split; [now apply box_in|]. pose proof (proj1 (proj2 Hh)) as Ee. rewrite Ee. split; [exact (at_spaced w Pw D zs es Hs)|].
    destruct (way_facts w Pw D zs es s d Hw) as (Nsd & _). cbn [calm_op]. split; [exact Nsd|]. right. right. split; [|exact step_climbs].
    exact (check_way w Pw Tw D K zs es s d os Hw Ho).
  - intros g' Q. cbn [step exact_op] in Q. apply bind_ok in Q. destruct Q as ([g1 r] & Q & E). injection E as <-. apply Next. exact (call_result gx g1 r Hh Q).
Qed.
End Step.
End Steps.
