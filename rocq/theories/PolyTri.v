(** * diagonal and triangulate in exact arithmetic. *)
From Coq Require Import Reals List Bool Lra Lia Psatz Arith.
From Verif Require Import Scalar Utils Polygon PlaneSpec PolySpec Laws UtilsReal PolyArea PolyDiag.
Import ListNotations.
Local Open Scope R_scope.

(** ** Cones *)
Lemma combo_solve : forall a p q b, cross a p a q <> 0 ->
  b = combo a p q (cross a b a q / cross a p a q) (cross a p a b / cross a p a q).
Proof. intros a p q b H. apply pt_eq; unfold combo, cross in *; simpl; field; exact H. Qed.

Lemma combo_cross : forall a p q l m,
  cross a (combo a p q l m) a q = l * cross a p a q /\
  cross a p a (combo a p q l m) = m * cross a p a q.
Proof. intros. unfold combo, cross; simpl. split; ring. Qed.

Lemma cone_iff : forall a0 a a1 b : point,
  cone (O := RO) a0 a a1 b = true <-> interior_angle a0 a a1 b.
Proof.
  intros a0 a a1 b. unfold cone, interior_angle.
  set (turn := cross a a1 a a0).
  assert (S1 : cross b a b a1 = cross a a1 a b) by (unfold cross; ring).
  assert (S2 : cross b a b a0 = - cross a b a a0) by (unfold cross; ring).
  assert (S3 : cross a b a a1 = - cross a a1 a b) by (unfold cross; ring).
  destruct (left_on a a1 a0) eqn:E; orient; fold turn in E.
  - rewrite andb_true_iff, !left_iff, S1. split.
    + intros [H1 H2]. destruct E as [E|E]; [left|right; right; auto].
      split; [exact E|]. exists (cross a b a a0 / turn), (cross a a1 a b / turn).
      split; [now apply Rdiv_lt_0_compat|]. split; [now apply Rdiv_lt_0_compat|].
      apply combo_solve. fold turn. lra.
    + intros [(T & l & m & Hl & Hm & ->)|[(T & _)|(_ & H)]]; [|lra|exact H].
      destruct (combo_cross a a1 a0 l m) as [-> ->]. fold turn. split; now apply Rmult_lt_0_compat.
  - rewrite negb_true_iff, andb_false_iff, !left_on_false, S2, S3. split.
    + intros H. right; left. split; [exact E|]. intros (l & m & Hl & Hm & ->).
      destruct (combo_cross a a1 a0 l m) as [C1 C2]. rewrite C1, C2 in H. fold turn in H. nra.
    + intros [(T & _)|[(_ & N)|(T & _)]]; [lra| |lra].
      destruct (Rlt_dec (- cross a a1 a b) 0) as [|K1]; [now left|].
      destruct (Rlt_dec (- cross a b a a0) 0) as [|K2]; [now right|]. exfalso. apply N.
      exists (cross a b a a0 / turn), (cross a a1 a b / turn). split; [|split].
      * replace (cross a b a a0 / turn) with ((- cross a b a a0) * / - turn) by (field; lra).
        apply Rmult_le_pos; [lra|left; apply Rinv_0_lt_compat; lra].
      * replace (cross a a1 a b / turn) with ((- cross a a1 a b) * / - turn) by (field; lra).
        apply Rmult_le_pos; [lra|left; apply Rinv_0_lt_compat; lra].
      * apply combo_solve. fold turn. lra.
Qed.

(** A direction inside the interior angle is not along either side. *)
Lemma interior_not_side : forall a0 a a1 b k, interior_angle a0 a a1 b -> 0 <= k ->
  b <> combo a a1 a0 k 0 /\ b <> combo a a1 a0 0 k.
Proof.
  intros a0 a a1 b k H Hk.
  destruct H as [(T & l & m & Hl & Hm & ->)|[(T & N)|(T & H1 & H2)]].
  - split; intros E; pose proof (f_equal (fun x => cross a x a a0) E) as E1;
      pose proof (f_equal (fun x => cross a a1 a x) E) as E2; cbn beta in E1, E2;
      repeat rewrite (proj1 (combo_cross a a1 a0 _ _)) in E1;
      repeat rewrite (proj2 (combo_cross a a1 a0 _ _)) in E2; nra.
  - split; intros ->; apply N; [exists k, 0|exists 0, k]; (split; [lra|split; [lra|reflexivity]]).
  - split; intros ->; [rewrite (proj2 (combo_cross a a1 a0 _ _)) in H2; lra|
      rewrite (proj1 (combo_cross a a1 a0 _ _)) in H1; lra].
Qed.

(** ** Symmetry *)
Lemma collinear_sym : forall a b c : point, collinear (O := RO) b a c = collinear a b c.
Proof.
  intros. apply eq_true_iff_eq. rewrite !collinear_iff, cross_swap12. lra.
Qed.

Lemma along_rev : forall p q t, along q p t = along p q (1 - t).
Proof. intros p q t. apply pt_eq; unfold along; simpl; ring. Qed.

Lemma proper_sym1 : forall a b c d, proper_crossing a b c d -> proper_crossing b a c d.
Proof.
  intros a b c d (N & t & u & Ht & Hu & E). split.
  - assert (C : cross b a c d = - cross a b c d) by (unfold cross; ring). lra.
  - exists (1 - t), u. split; [lra|]. split; [lra|]. rewrite along_rev.
    replace (1 - (1 - t)) with t by ring. exact E.
Qed.

Lemma intersect_prop_sym : forall a b c d : point, intersect_prop (O := RO) b a c d = intersect_prop a b c d.
Proof.
  intros a b c d. apply eq_true_iff_eq. rewrite !intersect_prop_iff. split; apply proper_sym1.
Qed.

Lemma between_sym : forall a b c : point, between (O := RO) b a c = between a b c.
Proof.
  intros a b c. unfold between. rewrite collinear_sym.
  destruct (negb (collinear a b c)); [reflexivity|]. simpl.
  replace (Reqb (vx b) (vx a)) with (Reqb (vx a) (vx b)).
  2:{ apply eq_true_iff_eq. rewrite !Reqb_true. split; congruence. }
  destruct (negb (Reqb (vx a) (vx b))).
  - rewrite orb_comm. f_equal; apply andb_comm.
  - rewrite orb_comm. f_equal; apply andb_comm.
Qed.

Lemma intersect_sym : forall a b c d : point, intersect (O := RO) b a c d = intersect a b c d.
Proof.
  intros a b c d. unfold intersect. rewrite intersect_prop_sym, !(between_sym a b).
  destruct (intersect_prop a b c d); [reflexivity|].
  destruct (between a b c), (between a b d), (between c d a), (between c d b); reflexivity.
Qed.

Lemma diag_sym_true : forall (vs : list point) i j, diag (O := RO) vs i j = true -> diag (O := RO) vs j i = true.
Proof.
  intros vs i j. rewrite !diag_true. intros (N & K & C1 & C2).
  split; [congruence|]. split; [|split; assumption].
  intros k Hk N1 N2 N3 N4. rewrite intersect_sym. now apply K.
Qed.

Lemma diag_sym : forall (vs : list point) i j, diag (O := RO) vs i j = diag vs j i.
Proof. intros. apply eq_true_iff_eq. split; apply diag_sym_true. Qed.

(** ** Neighbours are not joined by a diagonal *)
Lemma cone_next : forall a0 a a1 : point, cone (O := RO) a0 a a1 a1 = false.
Proof.
  intros a0 a a1. apply not_true_is_false. rewrite cone_iff. intros H.
  assert (E : @eq point a1 (combo a a1 a0 1 0)) by (apply pt_eq; unfold combo; simpl; ring).
  exact (proj1 (interior_not_side a0 a a1 a1 1 H Rle_0_1) E).
Qed.

Lemma diag_neighbor : forall (vs : list point) i, (i < length vs)%nat ->
  diag (O := RO) vs i (nxt (length vs) i) = false /\ diag (O := RO) vs (nxt (length vs) i) i = false.
Proof.
  intros vs i H.
  assert (D : diag (O := RO) vs i (nxt (length vs) i) = false).
  { apply not_true_is_false. rewrite diag_true. intros (_ & _ & C & _).
    pose proof (cone_next (vtx vs (prv (length vs) i)) (vtx vs i) (vtx vs (nxt (length vs) i))) as C'.
    change (@eq bool (cone (O := RO) (vtx vs (prv (length vs) i)) (vtx vs i) (vtx vs (nxt (length vs) i)) (vtx vs (nxt (length vs) i))) true) in C.
    congruence. }
  split; [exact D|]. rewrite diag_sym. exact D.
Qed.

(** ** Soundness *)
Definition open_segment (p q x : point) : Prop := exists t, 0 < t < 1 /\ x = along p q t.

Lemma cone_clear : forall a0 a a1 b x, interior_angle a0 a a1 b ->
  open_segment a b x -> ~ on_segment a a1 x /\ ~ on_segment a0 a x.
Proof.
  intros a0 a a1 b x H (t & Ht & ->). split.
  - intros (s & Hs & E). destruct (interior_not_side a0 a a1 b (s / t) H) as [N _].
    { apply Rmult_le_pos; [lra|left; apply Rinv_0_lt_compat; lra]. }
    apply N. unfold along in E. injection E as E1 E2.
    apply pt_eq; unfold combo; simpl.
    + replace (vx a + s / t * (vx a1 - vx a) + 0 * (vx a0 - vx a)) with (vx a + s * (vx a1 - vx a) / t) by (field; lra).
      replace (s * (vx a1 - vx a)) with (t * (vx b - vx a)) by lra. field. lra.
    + replace (vy a + s / t * (vy a1 - vy a) + 0 * (vy a0 - vy a)) with (vy a + s * (vy a1 - vy a) / t) by (field; lra).
      replace (s * (vy a1 - vy a)) with (t * (vy b - vy a)) by lra. field. lra.
  - intros (s & Hs & E). destruct (interior_not_side a0 a a1 b ((1 - s) / t) H) as [_ N].
    { apply Rmult_le_pos; [lra|left; apply Rinv_0_lt_compat; lra]. }
    apply N. unfold along in E. injection E as E1 E2.
    apply pt_eq; unfold combo; simpl.
    + replace (vx a + 0 * (vx a1 - vx a) + (1 - s) / t * (vx a0 - vx a)) with (vx a + (1 - s) * (vx a0 - vx a) / t) by (field; lra).
      replace ((1 - s) * (vx a0 - vx a)) with (t * (vx b - vx a)) by lra. field. lra.
    + replace (vy a + 0 * (vy a1 - vy a) + (1 - s) / t * (vy a0 - vy a)) with (vy a + (1 - s) * (vy a0 - vy a) / t) by (field; lra).
      replace ((1 - s) * (vy a0 - vy a)) with (t * (vy b - vy a)) by lra. field. lra.
Qed.

Lemma open_rev : forall p q x, open_segment p q x -> open_segment q p x.
Proof. intros p q x (t & Ht & ->). exists (1 - t). split; [lra|]. now rewrite along_rev. Qed.

Theorem diag_sound : forall (vs : list point) i j, (i < length vs)%nat -> (j < length vs)%nat ->
  diag (O := RO) vs i j = true ->
  let n := length vs in
  i <> j /\ j <> nxt n i /\ i <> nxt n j /\
  (forall k x, (k < n)%nat -> open_segment (vtx vs i) (vtx vs j) x ->
     ~ on_segment (vtx vs k) (vtx vs (nxt n k)) x) /\
  interior_angle (vtx vs (prv n i)) (vtx vs i) (vtx vs (nxt n i)) (vtx vs j) /\
  interior_angle (vtx vs (prv n j)) (vtx vs j) (vtx vs (nxt n j)) (vtx vs i).
Proof.
  intros vs i j Hi Hj D n. pose proof D as D'. apply diag_true in D. destruct D as (N & K & C1 & C2).
  change (cone (O := RO) (vtx vs (prv n i)) (vtx vs i) (vtx vs (nxt n i)) (vtx vs j) = true) in C1.
  change (cone (O := RO) (vtx vs (prv n j)) (vtx vs j) (vtx vs (nxt n j)) (vtx vs i) = true) in C2.
  change (forall k, (k < n)%nat -> k <> i -> nxt n k <> i -> k <> j -> nxt n k <> j ->
     intersect (O := RO) (vtx vs i) (vtx vs j) (vtx vs k) (vtx vs (nxt n k)) = false) in K.
  apply cone_iff in C1, C2.
  split; [exact N|]. split; [|split; [|split; [|split; assumption]]].
  - intros ->. destruct (diag_neighbor vs i Hi) as [E _]. fold n in E. congruence.
  - intros ->. destruct (diag_neighbor vs j Hj) as [_ E]. fold n in E. congruence.
  - intros k x Hk Hx Hs.
    destruct (Nat.eq_dec k i) as [->|N1].
    { now apply (proj1 (cone_clear _ _ _ _ x C1 Hx)). }
    destruct (Nat.eq_dec k j) as [->|N3].
    { now apply (proj1 (cone_clear _ _ _ _ x C2 (open_rev _ _ _ Hx))). }
    destruct (Nat.eq_dec (nxt n k) i) as [E|N2].
    { assert (k = prv n i) by (rewrite <- E; symmetry; now apply prv_nxt). subst k. rewrite E in Hs.
      now apply (proj2 (cone_clear _ _ _ _ x C1 Hx)). }
    destruct (Nat.eq_dec (nxt n k) j) as [E|N4].
    { assert (k = prv n j) by (rewrite <- E; symmetry; now apply prv_nxt). subst k. rewrite E in Hs.
      now apply (proj2 (cone_clear _ _ _ _ x C2 (open_rev _ _ _ Hx))). }
    specialize (K k Hk N1 N2 N3 N4).
    assert (I : intersect (O := RO) (vtx vs i) (vtx vs j) (vtx vs k) (vtx vs (nxt n k)) = true).
    { apply intersect_complete. exists x. split; [|exact Hs].
      destruct Hx as (t & Ht & ->). exists t. split; [lra|reflexivity]. }
    exact (eq_true_false_abs _ I K).
Qed.

(** ** Areas of a triangulation *)
Lemma nth_split_at : forall A (d : A) (l : list A) i, (i < length l)%nat ->
  l = firstn i l ++ nth i l d :: skipn (S i) l.
Proof.
  intros A d l. induction l as [|x l IH]; intros i H; [simpl in H; lia|].
  destruct i as [|i]; [reflexivity|]. cbn [firstn nth skipn app]. f_equal. apply IH. simpl in H. lia.
Qed.

Lemma skipn_nth : forall A (d : A) k (l : list A), (k < length l)%nat ->
  skipn k l = nth k l d :: skipn (S k) l.
Proof.
  intros A d k. induction k as [|k IH]; intros [|x l] H; try (simpl in H; lia); [reflexivity|].
  simpl in H. cbn [skipn nth]. rewrite IH by lia. reflexivity.
Qed.

Lemma remove_at_firstn : forall A i (l : list A), (i < length l)%nat ->
  remove_at i l = firstn i l ++ skipn (S i) l.
Proof.
  intros A i l. revert i. induction l as [|x l IH]; intros i H; [simpl in H; lia|].
  destruct i as [|i]; [reflexivity|]. cbn [firstn skipn app remove_at]. f_equal. apply IH. simpl in H. lia.
Qed.

Lemma shoelace_remove : forall (vs : list point) v, (3 <= length vs)%nat -> (v < length vs)%nat ->
  shoelace vs = cross (vtx vs (prv (length vs) v)) (vtx vs v) (vtx vs (prv (length vs) v)) (vtx vs (nxt (length vs) v))
                + shoelace (remove_at v vs).
Proof.
  intros vs v Hn Hv. rewrite remove_at_firstn by assumption.
  destruct v as [|v].
  - cbn [prv firstn app skipn]. unfold nxt. destruct (Nat.eqb_spec 1 (length vs)); [lia|].
    destruct vs as [|q [|r m]]; try (simpl in Hn; lia).
    destruct (exists_last (l := m)) as (m' & p & ->).
    { intros ->. simpl in Hn. lia. }
    replace (length (q :: r :: m' ++ [p]) - 1)%nat with (length (q :: r :: m')) by (simpl; rewrite app_length; simpl; lia).
    assert (Hp : vtx (q :: r :: m' ++ [p]) (length (q :: r :: m')) = p).
    { unfold vtx. change (q :: r :: m' ++ [p]) with ((q :: r :: m') ++ [p]).
      rewrite app_nth2, Nat.sub_diag by lia. reflexivity. }
    rewrite Hp. unfold vtx; cbn [nth].
    change (r :: m' ++ [p]) with ((r :: m') ++ [p]).
    change (q :: (r :: m') ++ [p]) with ((q :: r :: m') ++ [p]). rewrite !(shoelace_rot1 p).
    exact (shoelace_corner [] p q r m').
  - cbn [prv]. unfold nxt. destruct (Nat.eqb_spec (S (S v)) (length vs)) as [E|E].
    + (* last vertex *)
      assert (Sk : skipn (S (S v)) vs = []) by (apply skipn_all2; lia). rewrite Sk, app_nil_r.
      pose proof (nth_split_at _ (P2 0 0) vs (S v) Hv) as Hs. rewrite Sk in Hs.
      set (q := nth (S v) vs (P2 0 0)) in *.
      destruct vs as [|r m]; [simpl in Hn; lia|].
      assert (Hm : firstn (S v) (r :: m) = r :: firstn v m) by reflexivity.
      destruct (exists_last (l := firstn v m)) as (m' & p & Em).
      { intros Z. apply (f_equal (@length _)) in Z. rewrite firstn_length in Z. simpl in *. lia. }
      assert (Lv : v = length (r :: m')).
      { apply (f_equal (@length _)) in Em. rewrite firstn_length, app_length in Em. simpl in *. lia. }
      rewrite Hm, Em in *.
      assert (Hs' : r :: m = (r :: m') ++ [p; q]).
      { rewrite Hs at 1. cbn [app]. now rewrite <- app_assoc. }
      assert (Hp : nth v (r :: m) (P2 0 0) = p).
      { rewrite Hs', Lv, app_nth2, Nat.sub_diag by lia. reflexivity. }
      unfold vtx. fold q. change (nth 0 (r :: m) (P2 0 0)) with r. rewrite Hp.
      change (r :: m' ++ [p]) with ((r :: m') ++ [p]).
      rewrite Hs' at 1. rewrite !(shoelace_rot (r :: m')). cbn [app].
      exact (shoelace_corner [] p q r m').
    + pose proof (nth_split_at _ (P2 0 0) vs v ltac:(lia)) as H1.
      assert (L1 : length (firstn v vs) = v) by (rewrite firstn_length; lia).
      pose proof (skipn_nth _ (P2 0 0) (S v) vs ltac:(lia)) as H2.
      pose proof (skipn_nth _ (P2 0 0) (S (S v)) vs ltac:(lia)) as H3. rewrite H3 in H2.
      assert (F : firstn (S v) vs = firstn v vs ++ [nth v vs (P2 0 0)]).
      { rewrite H1 at 1. rewrite firstn_app, L1. replace (S v - v)%nat with 1%nat by lia.
        rewrite firstn_all2 by lia. reflexivity. }
      rewrite F, H3, <- app_assoc. cbn [app].
      rewrite H1 at 1. rewrite H2. unfold vtx. apply shoelace_corner.
Qed.

Definition signed (t : list point) : R := shoelace t.
Definition total (ts : list (Polygon R)) : R := sum (map (fun t => polygon_area (O := RO) t) ts).

(** Each triangle of the result is, up to reversal, a triple whose signed areas add up
    to that of the polygon. *)
Definition pieces (us : list (Polygon R)) (trs : list (list point)) : Prop :=
  Forall2 (fun (t : Polygon R) tr => length tr = 3%nat /\ (vertices t = tr \/ vertices t = rev tr)) us trs.

Lemma loop_areas : forall fuel (vs : list point) fl ts ts', (3 <= length vs)%nat -> length fl = length vs ->
  triangulate_loop (O := RO) fuel vs fl ts = Some (Ok ts') ->
  exists us trs, ts' = ts ++ us /\ pieces us trs /\ sum (map shoelace trs) = shoelace vs /\
    (exists us0, us = us0 ++ [last us (MkPolygon [])] /\
       forall t, In t us0 -> 0 <= shoelace (vertices t)).
Proof.
  induction fuel as [|fuel IH]; intros vs fl ts ts' Hn Hl H; [discriminate|].
  cbn [triangulate_loop] in H.
  match type of H with context [Nat.ltb 3 ?k] => destruct (Nat.ltb_spec 3 k) as [L|L] end.
  - destruct (find_ear fl 0) as [v|] eqn:E; [|exact (IH vs fl ts ts' Hn Hl H)].
    destruct (find_ear_some _ _ _ E) as (k & Ek & Nk). simpl in Ek. subst k.
    assert (Hv : (v < length vs)%nat) by (rewrite <- Hl; apply nth_error_Some; congruence).
    destruct (clip_ear_ok (O := RO) vs fl v L Hl Hv) as (t & fl' & C & T & L' & _).
    rewrite C in H. change (3 < length vs)%nat in L.
    assert (Lv : length (remove_at v vs) = (length vs - 1)%nat) by (now apply remove_at_length).
    destruct (IH (remove_at v vs) fl' (ts ++ [t]) ts' ltac:(lia) L' H) as (us & trs & -> & P & S & us0 & Eu & Hu).
    destruct (polygon_new_spec _ _ T) as (W & Pos & _ & _).
    exists (t :: us), ([vtx vs (prv (length vs) v); vtx vs v; vtx vs (nxt (length vs) v)] :: trs).
    split; [now rewrite <- app_assoc|]. split; [|split].
    + constructor; [|exact P]. split; [reflexivity|]. exact W.
    + unfold sum in *. cbn [map fold_right]. rewrite S. rewrite (shoelace_remove vs v Hn Hv).
      f_equal. unfold shoelace, cross; simpl. ring.
    + exists (t :: us0). split.
      * rewrite Eu at 1. destruct us as [|u us]; [destruct us0; discriminate|]. reflexivity.
      * intros t' [<-|Ht']; [exact Pos|now apply Hu].
  - inversion H. exists [MkPolygon vs], [vs]. split; [reflexivity|]. split; [|split].
    + constructor; [|constructor]. split; [|now left]. change (3 <= length vs)%nat in Hn.
      change (length vs <= 3)%nat in L. lia.
    + unfold sum; simpl. apply Rplus_0_r.
    + exists []. split; [reflexivity|]. intros t [].
Qed.

Lemma triangulate_areas : forall fuel (p : Polygon R) ts, (3 <= length (vertices p))%nat ->
  triangulate (O := RO) fuel p = Some (Ok ts) ->
  exists trs, pieces ts trs /\ sum (map shoelace trs) = shoelace (vertices p) /\
    (exists us0, ts = us0 ++ [last ts (MkPolygon [])] /\
       forall t, In t us0 -> 0 <= shoelace (vertices t)).
Proof.
  intros fuel p ts Hn H. unfold triangulate in H.
  match type of H with context [Nat.eqb ?k 3] => destruct (Nat.eqb_spec k 3) as [E|E] end.
  - inversion H. exists [vertices p]. split; [|split].
    + constructor; [|constructor]. split; [exact E|now left].
    + unfold sum; simpl. apply Rplus_0_r.
    + exists []. split; [reflexivity|]. intros t [].
  - rewrite ear_flags_eq in H by (intros i Hi; apply in_seq in Hi; lia).
    apply loop_areas in H; [|assumption|now rewrite map_length, seq_length].
    destruct H as (us & trs & -> & H). now exists trs.
Qed.

Lemma sum_abs : forall l, Rabs (sum l) <= sum (map Rabs l).
Proof.
  induction l as [|x l IH]; unfold sum in *; simpl; [rewrite Rabs_R0; lra|].
  eapply Rle_trans; [apply Rabs_triang|]. lra.
Qed.

Lemma pieces_area : forall us trs, pieces us trs ->
  total us = sum (map Rabs (map shoelace trs)) / 2.
Proof.
  intros us trs P. induction P as [|t tr us trs [_ W] P IH]; [unfold total, sum; simpl; lra|].
  change (@eq R (polygon_area (O := RO) t + total us)
    ((Rabs (shoelace tr) + sum (map Rabs (map shoelace trs))) / 2)).
  rewrite IH, polygon_area_shoelace.
  assert (E : Rabs (shoelace (vertices t)) = Rabs (shoelace tr)).
  { destruct W as [-> | ->]; [reflexivity|]. rewrite shoelace_rev. apply Rabs_Ropp. }
  rewrite E. lra.
Qed.

Theorem triangulate_total_ge : forall fuel (p : Polygon R) ts, (3 <= length (vertices p))%nat ->
  triangulate (O := RO) fuel p = Some (Ok ts) -> polygon_area (O := RO) p <= total ts.
Proof.
  intros fuel p ts Hn H. destruct (triangulate_areas fuel p ts Hn H) as (trs & P & S & _).
  rewrite (pieces_area _ _ P). rewrite polygon_area_shoelace, <- S.
  pose proof (sum_abs (map shoelace trs)). lra.
Qed.
