(** * The nodes that add_edge makes (proofs for C159). *)
From Coq Require Import List Arith Bool Lia Permutation.
From Verif Require Import Scalar Utils Polygon Graph GraphSpec Laws Closest GraphAdd GraphAddProps GeoGraph ShuffleSpec Shuffle NewNodesSpec.
Import ListNotations.

Section Unique.
Context {O : Ops}.
Local Notation pt := (Vec2 O).
Local Notation cnt a l := (length (filter (fun b => ole (distance a b) ceps) l)).

Lemma other_past : forall (a : pt) i l j, i < j -> has_close_other a i j l = negb (Nat.eqb (cnt a l) 0).
Proof.
  intros a i. induction l as [|b l IH]; intros j H; [reflexivity|]. cbn [has_close_other filter].
  replace (Nat.eqb i j) with false by (symmetry; apply Nat.eqb_neq; lia). cbn [negb andb]. unfold close_to at 1.
  destruct (ole (distance a b) ceps); [reflexivity|]. apply IH. lia.
Qed.

Lemma other_count : forall (a : pt) i l j, j <= i -> nth_error l (i - j) = Some a ->
  has_close_other a i j l = negb (alone l a).
Proof.
  intros a i. unfold alone. induction l as [|b l IH]; intros j H N; [destruct (i - j); discriminate|].
  cbn [has_close_other filter]. destruct (Nat.eqb_spec i j) as [->|Ne]; cbn [negb andb].
  - rewrite Nat.sub_diag in N. cbn in N. injection N as ->. rewrite other_past by lia. destruct (ole (distance a a) ceps); [|reflexivity].
    cbn [length]. reflexivity.
  - replace (i - j) with (S (i - S j)) in N by lia. cbn [nth_error] in N. unfold close_to at 1.
    destruct (ole (distance a b) ceps) eqn:Eb; [|apply IH; [lia|exact N]].
    cbn [length]. destruct (ole (distance a a) ceps) eqn:Ea; [|reflexivity].
    assert (In a (filter (fun b => ole (distance a b) ceps) l)) by (apply filter_In; split; [eapply nth_error_In; exact N|exact Ea]).
    destruct (filter (fun b => ole (distance a b) ceps) l); [contradiction|reflexivity].
Qed.

Lemma unique_filter : forall ps : list pt, unique_points_among ps = filter (alone ps) ps.
Proof.
  intros ps. unfold unique_points_among.
  assert (K : forall rest i, (forall k p, nth_error rest k = Some p -> nth_error ps (i + k) = Some p) -> unique_loop ps rest i = filter (alone ps) rest).
  { induction rest as [|a rest IH]; intros i H; [reflexivity|]. cbn [unique_loop filter].
    rewrite (other_count a i ps 0 (Nat.le_0_l i)) by (rewrite Nat.sub_0_r; specialize (H 0 a eq_refl); now rewrite Nat.add_0_r in H).
    rewrite negb_involutive. rewrite IH; [reflexivity|]. intros k p Hk. specialize (H (S k) p Hk). now rewrite Nat.add_succ_r in H. }
  apply K. intros k p H. exact H.
Qed.

Lemma alone_perm : forall (l l' : list pt) a, Permutation l l' -> alone l a = alone l' a.
Proof. intros l l' a P. unfold alone. now rewrite (Permutation_length (perm_filter _ _ l l' P)). Qed.

(** Two points that are kept are not close. *)
Lemma kept_far : forall (l1 l2 l3 : list pt) p q, alone (l1 ++ p :: l2 ++ q :: l3) q = true -> ole (distance q p) ceps = false.
Proof.
  intros l1 l2 l3 p q H. unfold alone in H. rewrite filter_app in H. cbn [filter] in H. destruct (ole (distance q p) ceps) eqn:E; [|reflexivity]. exfalso.
  apply Nat.eqb_eq in H. rewrite app_length in H. cbn [length] in H. rewrite filter_app, app_length in H. cbn [filter] in H.
  destruct (ole (distance q q) ceps); cbn [length] in H; lia.
Qed.
End Unique.

Section Any.
Context {O : Ops} (L : Laws O) {T U : Type} (dT : T).
Local Notation graph := (PlanarGraph O T U).
Local Notation pt := (Vec2 O).
Local Notation mk := (fun p : pt => MkNode p dT DEFAULT_LABEL).

Lemma vacant_near : forall (g : graph) p, vacant (nodes g) p = false <-> near_node g p.
Proof.
  intros g p. unfold vacant, near_node. split.
  - intros H. apply not_true_iff_false in H. destruct (existsb (fun n => olt (distance p (position n)) ceps) (nodes g)) eqn:E.
    + apply existsb_exists in E. destruct E as (n & Hn & E). apply In_nth_error in Hn. destruct Hn as (i & Hi). eauto.
    + exfalso. apply H. apply forallb_forall. intros n Hn. apply negb_true_iff. apply not_true_iff_false. intros C.
      apply not_true_iff_false in E. apply E. apply existsb_exists. eauto.
  - intros (i & n & Hn & C). apply not_true_iff_false. intros H. rewrite forallb_forall in H. specialize (H n (nth_error_In _ _ Hn)). rewrite C in H. discriminate.
Qed.

Lemma points_fresh : forall ps (g : graph) done base cn ce g' r, nodes g = base ++ map mk done ->
  (forall p q, In p done -> In q ps -> ole (distance q p) ceps = false) ->
  ForallOrdPairs (fun p q => ole (distance q p) ceps = false) ps ->
  split_at_points dT g ps cn ce = Ok (g', r) -> nodes g' = base ++ map mk (done ++ filter (vacant base) ps) /\
  fst r = cn ++ seq (length base + length done) (length (filter (vacant base) ps)).
Proof.
  induction ps as [|p ps IH]; intros g done base cn ce g' r N D F H; cbn [split_at_points filter] in *.
  - inversion H; subst. cbn [fst length seq]. now rewrite !app_nil_r.
  - inversion F as [|x y F1 F2]; subst. rewrite Forall_forall in F1.
    assert (V : vacant (nodes g) p = vacant base p).
    { rewrite N. unfold vacant. rewrite forallb_app. match goal with |- _ && ?b = _ => assert (Hb : b = true); [|now rewrite Hb, andb_true_r] end.
      apply forallb_forall. intros n Hn. apply in_map_iff in Hn. destruct Hn as (q & <- & Hq). cbn [position]. apply negb_true_iff, not_true_iff_false.
      intros C. apply (lt_le O L) in C. rewrite (D q p Hq (or_introl eq_refl)) in C. discriminate. }
    destruct (find_closest_to p (gather_node_positions g)) as [j ds] eqn:Fc. destruct (closest_not_near L g p j ds Fc) as [C _].
    destruct (olt ds ceps) eqn:Lt.
    + apply bind_ok in H. destruct H as ([g1 ces] & H1 & H). apply split_at_node_ok in H1. destruct H1 as (N1 & _).
      rewrite (proj2 (vacant_near g p) (proj1 C eq_refl)) in V. rewrite <- V.
      apply (IH g1 done base cn (ce ++ ces) g' r); [congruence|intros a b Ha Hb; apply D; [exact Ha|now right]|exact F2|exact H].
    + apply bind_ok in H. destruct H as ([g1 [ni ces]] & H1 & H).
      apply add_node_ok in H1. destruct H1 as [(d' & F' & L' & _)|(d' & j' & F' & L' & Ni & N1 & _)]; [congruence|].
      assert (V1 : vacant (nodes g) p = true).
      { destruct (vacant (nodes g) p) eqn:E; [reflexivity|]. apply vacant_near, C in E. discriminate. }
      rewrite V1 in V. rewrite <- V.
      destruct (IH g1 (done ++ [p]) base (cn ++ [ni]) (ce ++ ces) g' r) as [E1 E2]; [| |exact F2|exact H|].
      * rewrite N1, N, map_app, <- app_assoc. reflexivity.
      * intros a b Ha Hb. apply in_app_or in Ha. destruct Ha as [Ha|[<-|[]]]; [apply D; [exact Ha|now right]|now apply F1].
      * rewrite E1, E2, Ni, N, !app_length, map_length, <- !app_assoc. split; [reflexivity|]. cbn [app length seq]. do 3 f_equal. lia.
Qed.

Lemma ordered : forall (all pre ps : list pt), all = pre ++ ps -> ForallOrdPairs (fun p q => ole (distance q p) ceps = false) (filter (alone all) ps).
Proof.
  intros all pre ps. revert pre. induction ps as [|p ps IH]; intros pre E; [constructor|]. cbn [filter].
  assert (R : ForallOrdPairs (fun p q => ole (distance q p) ceps = false) (filter (alone all) ps)) by (apply (IH (pre ++ [p])); now rewrite <- app_assoc).
  destruct (alone all p); [|exact R]. constructor; [|exact R]. apply Forall_forall. intros q Hq. apply filter_In in Hq. destruct Hq as [Hq A].
  apply in_split in Hq. destruct Hq as (l2 & l3 & ->). rewrite E in A. exact (kept_far pre l2 l3 p q A).
Qed.

Lemma cuts_crossings : forall (g : graph) s d, valid g -> s < length (nodes g) -> d < length (nodes g) ->
  crossings g (pos_at (nodes g) s) (pos_at (nodes g) d) (edges g) = cuts g s d.
Proof.
  intros g s d V Ls Ld. unfold crossings, cuts, valid in *. revert V. generalize (edges g). induction l as [|e l IH]; intros V; [reflexivity|]. cbn [flat_map].
  rewrite IH by (intros x Hx; apply V; now right). f_equal. destruct (V e (or_introl eq_refl)) as [L1 L2].
  assert (K : forall i, i < length (nodes g) -> exists n, nth_error (nodes g) i = Some n).
  { intros i Hi. destruct (nth_error (nodes g) i) as [n|] eqn:E; [eauto|]. apply nth_error_None in E. lia. }
  destruct (K _ L1) as (a & A), (K _ L2) as (b & B), (K _ Ls) as (p & P), (K _ Ld) as (q & Q). unfold pos_at. rewrite A, B, P, Q. reflexivity.
Qed.

Lemma add_edge_fresh : forall (g : graph) s d u g' r, valid g -> ~ adjacent g s d -> s < node_count g -> d < node_count g ->
  add_edge dT g s d u = Ok (g', r) -> nodes g' = nodes g ++ map mk (fresh g s d) /\
  exists ce, r = AddOk (seq (node_count g) (length (fresh g s d))) ce.
Proof.
  intros g s d u g' r V NA Ls Ld H. unfold node_count in *. unfold add_edge in H. destruct (has_edge_between_nodes g s d) eqn:B; cbn [negb] in H.
  { exfalso. apply NA. now apply between_adjacent. }
  unfold get_vertex in H. destruct (nth_error (nodes g) s) eqn:Es; [|apply nth_error_None in Es; lia].
  destruct (nth_error (nodes g) d) eqn:Ed; [|apply nth_error_None in Ed; lia].
  apply bind_ok in H. destruct H as ([g2 [cn ce]] & H1 & H). inversion H; subst g2.
  unfold split_edges_along_edge in H1. apply bind_ok in H1. destruct H1 as (is & Hi & H1). cbn [edges edge_count] in Hi.
  unfold edge_count in Hi. cbn [edges] in Hi. rewrite app_length in Hi. cbn [length] in Hi.
  replace (length (edges g) + 1 - 1) with (length (edges g)) in Hi by lia.
  apply inter_loop in Hi; [|cbn [edges]; rewrite nth_error_app2, Nat.sub_diag by lia; reflexivity|lia].
  cbn [src dst nodes] in Hi.
  assert (Hi' : is = cuts g s d) by (rewrite <- cuts_crossings by assumption; exact Hi). clear Hi. subst is.
  rewrite unique_filter in H1.
  apply (points_fresh _ _ [] (nodes g)) in H1; [destruct H1 as [E1 E2]; cbn [fst app length] in E2; rewrite Nat.add_0_r in E2; split; [exact E1|eexists; rewrite E2; reflexivity]|cbn; now rewrite app_nil_r|intros p q []|apply (ordered _ [] _ eq_refl)].
Qed.

Lemma perm_cuts : forall (g h : graph) s d, shuffled g h -> Permutation (cuts g s d) (cuts h s d).
Proof. intros g h s d [N P]. unfold cuts. rewrite N. now apply Permutation_flat_map. Qed.
Lemma perm_fresh : forall (g h : graph) s d, shuffled g h -> Permutation (fresh g s d) (fresh h s d).
Proof.
  intros g h s d S. pose proof (perm_cuts g h s d S) as P. unfold fresh. rewrite (proj1 S). apply perm_filter.
  rewrite (filter_ext (alone (cuts h s d)) (alone (cuts g s d))) by (intros a; symmetry; now apply alone_perm). now apply perm_filter.
Qed.
End Any.
