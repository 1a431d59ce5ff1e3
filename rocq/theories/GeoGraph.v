(** * The nodes that add_edge makes at crossings, for any scalars and in f32 with rounding. *)
From Coq Require Import List Arith Bool Lia Reals Lra ZArith Psatz.
From Flocq Require Import Core.Core IEEE754.BinarySingleNaN.
From Verif Require Import Scalar Utils Graph ListSpec GraphSpec PlaneSpec F32 Laws UtilsReal Closest
  GraphAdd GraphAddProps Format RoundSpec GeoSpec GeoRound GeoOn GeoSeg.
Import ListNotations.

Section Points.
Context {O : Ops} (L : Laws O) {T U : Type} (dT : T).
Local Notation graph := (PlanarGraph O T U).
Local Notation pt := (Vec2 O).

Definition crossings (g : graph) (c d : pt) (es : list (Edge U)) : list pt :=
  flat_map (fun e => match calculate_line_segment_intersection (pos_at (nodes g) (src e)) (pos_at (nodes g) (dst e)) c d with
    | Some p => [p] | None => [] end) es.

Lemma index_pos : forall (g : graph) i n, index (nodes g) i = Ok n -> pos_at (nodes g) i = position n.
Proof. intros g i n H. unfold index in H. unfold pos_at. destruct (nth_error (nodes g) i); [|discriminate]. now inversion H. Qed.

Lemma inter_loop : forall (g : graph) id e0 es idx l, nth_error (edges g) id = Some e0 -> idx + length es = id ->
  intersections_loop g id idx (es ++ [e0]) = Ok l ->
  l = crossings g (pos_at (nodes g) (src e0)) (pos_at (nodes g) (dst e0)) es.
Proof.
  intros g id e0 es. induction es as [|e es IH]; intros idx l He Hi H; cbn [app length intersections_loop] in *.
  - replace (id =? idx) with true in H by (symmetry; apply Nat.eqb_eq; lia). cbn [negb] in H. now inversion H.
  - replace (id =? idx) with false in H by (symmetry; apply Nat.eqb_neq; lia). cbn [negb] in H.
    apply bind_ok in H. destruct H as (p & Hp & H). apply bind_ok in H. destruct H as (q & Hq & H).
    apply bind_ok in H. destruct H as (e1 & He1 & H). apply bind_ok in H. destruct H as (r & Hr & H).
    apply bind_ok in H. destruct H as (s & Hs & H). apply bind_ok in H. destruct H as (rest & Hrest & H).
    unfold index in He1. rewrite He in He1. inversion He1; subst e1.
    apply IH in Hrest; [|exact He|lia]. subst rest. unfold crossings; cbn [flat_map].
    rewrite <- (index_pos g _ _ Hp), <- (index_pos g _ _ Hq), <- (index_pos g _ _ Hr), <- (index_pos g _ _ Hs) in H.
    destruct (calculate_line_segment_intersection _ _ _ _); inversion H; reflexivity.
Qed.

Lemma split_points_nodes : forall ps (g : graph) cn ce g' r, split_at_points dT g ps cn ce = Ok (g', r) ->
  exists qs, nodes g' = nodes g ++ map (fun p => MkNode p dT DEFAULT_LABEL) qs /\ (forall q, In q qs -> In q ps) /\
    forall p, In p ps -> exists n, In n (nodes g') /\ (position n = p \/ olt (distance p (position n)) ceps = true).
Proof.
  induction ps as [|p ps IH]; intros g cn ce g' r H; cbn [split_at_points] in H.
  - inversion H. exists []. rewrite app_nil_r. split; [reflexivity|]. split; intros q [].
  - destruct (find_closest_to p (gather_node_positions g)) as [j ds] eqn:Fc. destruct (olt ds ceps) eqn:Lt.
    + apply bind_ok in H. destruct H as ([g1 ces] & H1 & H). apply IH in H. destruct H as (qs & Hn & Hq & Hp).
      apply split_at_node_ok in H1. destruct H1 as (N1 & _). exists qs. rewrite Hn, N1. split; [reflexivity|].
      split; [intros q Hin; right; auto|]. intros x [<-|Hx].
      * destruct (closest_not_near L g p j ds Fc) as [_ C]. destruct (C Lt) as (n & Hk & ->). exists n.
        split; [apply in_or_app; left; eapply nth_error_In; exact Hk|now right].
      * destruct (Hp x Hx) as (n & Hin & C). exists n. split; [|exact C]. rewrite <- N1, <- Hn. exact Hin.
    + apply bind_ok in H. destruct H as ([g1 [ni ces]] & H1 & H). apply IH in H. destruct H as (qs & Hn & Hq & Hp).
      apply add_node_ok in H1. destruct H1 as [(d' & F' & L' & _)|(d' & j' & F' & L' & _ & N1 & _)]; [congruence|].
      exists (p :: qs). rewrite Hn, N1, <- app_assoc. split; [reflexivity|].
      split; [intros q [<-|Hin]; [now left|right; auto]|]. intros x [<-|Hx].
      * exists (MkNode p dT DEFAULT_LABEL). split; [|now left]. apply in_or_app. right. now left.
      * destruct (Hp x Hx) as (n & Hin & C). exists n. split; [|exact C].
        rewrite Hn, N1, <- app_assoc in Hin. exact Hin.
Qed.

(** The nodes after an add_edge that adds an edge. *)
Lemma add_edge_points : forall (g : graph) s d u g' r, add_edge dT g s d u = Ok (g', r) ->
  let ps := crossings g (pos_at (nodes g) s) (pos_at (nodes g) d) (edges g) in
  exists qs, nodes g' = nodes g ++ map (fun p => MkNode p dT DEFAULT_LABEL) qs /\ (forall q, In q qs -> In q ps) /\
    (~ adjacent g s d -> s < length (nodes g) -> d < length (nodes g) ->
     forall k p, nth_error ps k = Some p -> isolated ps k ->
     exists n, In n (nodes g') /\ (position n = p \/ olt (distance p (position n)) ceps = true)).
Proof.
  intros g s d u g' r H ps. unfold add_edge in H. destruct (has_edge_between_nodes g s d) eqn:B; cbn [negb] in H.
  - inversion H; subst g'. exists []. rewrite app_nil_r. split; [reflexivity|]. split; [intros q []|].
    intros NA. exfalso. apply NA. now apply between_adjacent.
  - unfold get_vertex in H. destruct (nth_error (nodes g) s) eqn:Es; [destruct (nth_error (nodes g) d) eqn:Ed|].
    + apply bind_ok in H. destruct H as ([g2 [cn ce]] & H1 & H). inversion H; subst g2.
      unfold split_edges_along_edge in H1. apply bind_ok in H1. destruct H1 as (is & Hi & H1). cbn [edges edge_count] in Hi.
      unfold edge_count in Hi. cbn [edges] in Hi. rewrite app_length in Hi. cbn [length] in Hi.
      replace (length (edges g) + 1 - 1) with (length (edges g)) in Hi by lia.
      apply inter_loop in Hi; [|cbn [edges]; rewrite nth_error_app2, Nat.sub_diag by lia; reflexivity|lia].
      cbn [src dst nodes] in Hi.
      apply split_points_nodes in H1. destruct H1 as (qs & Hn & Hq & Hp). cbn [nodes] in Hn.
      assert (Hi' : is = ps) by exact Hi. rewrite Hi' in Hq, Hp. clear Hi Hi'.
      destruct (unique_points_spec ps) as (keep & _ & K & M).
      assert (Sub : forall q, In q (unique_points_among ps) -> In q ps).
      { intros q Hin. apply (in_map Some) in Hin. rewrite M in Hin. apply in_map_iff in Hin. destruct Hin as (k & Hk & _).
        eapply nth_error_In; exact Hk. }
      exists qs. split; [exact Hn|]. split; [intros q Hin; apply Sub, Hq, Hin|].
      intros _ _ _ k p Hk Iso. apply Hp.
      assert (Hkeep : In k keep) by (apply K; split; [apply nth_error_Some; congruence|exact Iso]).
      apply (in_map (nth_error ps)) in Hkeep. rewrite <- M, Hk in Hkeep. apply in_map_iff in Hkeep.
      destruct Hkeep as (x & Ex & Hx). inversion Ex; now subst.
    + inversion H; subst g'. exists []. rewrite app_nil_r. split; [reflexivity|]. split; [intros q []|].
      intros _ _ Hd. apply nth_error_Some in Hd. congruence.
    + inversion H; subst g'. exists []. rewrite app_nil_r. split; [reflexivity|]. split; [intros q []|].
      intros _ Hs. apply nth_error_Some in Hs. congruence.
Qed.

(** Taking the crossing with one edge out of the list. *)
Lemma crossings_split : forall (g : graph) c d es k e p, nth_error es k = Some e ->
  calculate_line_segment_intersection (pos_at (nodes g) (src e)) (pos_at (nodes g) (dst e)) c d = Some p ->
  exists j, nth_error (crossings g c d es) j = Some p /\
    forall j' q, j' <> j -> nth_error (crossings g c d es) j' = Some q ->
    exists k' e', k' <> k /\ nth_error es k' = Some e' /\
      calculate_line_segment_intersection (pos_at (nodes g) (src e')) (pos_at (nodes g) (dst e')) c d = Some q.
Proof.
  intros g c d es k e p He Hc. destruct (nth_error_split es k He) as (l1 & l2 & -> & Hl).
  exists (length (crossings g c d l1)). unfold crossings. rewrite flat_map_app. cbn [flat_map]. rewrite Hc. cbn [app].
  assert (C : forall l q, In q (crossings g c d l) -> exists i e', nth_error l i = Some e' /\
     calculate_line_segment_intersection (pos_at (nodes g) (src e')) (pos_at (nodes g) (dst e')) c d = Some q).
  { intros l q Hq. unfold crossings in Hq. apply in_flat_map in Hq. destruct Hq as (e' & Hin & Hq).
    apply In_nth_error in Hin. destruct Hin as (i & Hin). exists i, e'. split; [exact Hin|].
    destruct (calculate_line_segment_intersection (pos_at (nodes g) (src e')) (pos_at (nodes g) (dst e')) c d) as [x|];
      cbn [In] in Hq; [|contradiction]. destruct Hq as [<-|[]]. reflexivity. }
  split; [rewrite nth_error_app2, Nat.sub_diag by (unfold crossings; lia); reflexivity|].
  intros j' q Hj Hq. fold (crossings g c d l1) in *. fold (crossings g c d l2) in *.
  destruct (Nat.lt_ge_cases j' (length (crossings g c d l1))) as [Hlt|Hge].
  - rewrite nth_error_app1 in Hq by exact Hlt. apply nth_error_In in Hq. destruct (C l1 q Hq) as (i & e' & Hi & Hc').
    exists i, e'. assert (i < length l1) by (apply nth_error_Some; congruence).
    split; [lia|]. split; [|exact Hc']. now rewrite nth_error_app1.
  - rewrite nth_error_app2 in Hq by exact Hge. destruct (j' - length (crossings g c d l1)) as [|m] eqn:Em; [lia|].
    cbn [nth_error] in Hq. apply nth_error_In in Hq. destruct (C l2 q Hq) as (i & e' & Hi & Hc').
    exists (k + S i), e'. split; [lia|]. split; [|exact Hc']. rewrite nth_error_app2 by lia.
    replace (k + S i - length l1) with (S i) by lia. exact Hi.
Qed.
End Points.

Local Open Scope R_scope.
Section F32.
Context (lm : Libm) {T U : Type} (dT : T).
Local Notation F := (FO lm).
Local Notation graph := (PlanarGraph F T U).
Local Notation rp := real_point.

Lemma dist_coords : forall p q : point, dist p q <= Rabs (vx q - vx p) + Rabs (vy q - vy p).
Proof.
  intros p q. pose proof (Rabs_pos (vx q - vx p)). pose proof (Rabs_pos (vy q - vy p)).
  apply sq_le; [lra|]. rewrite dist_sq.
  assert (Q : forall x, x * x = Rabs x * Rabs x) by (intros x; unfold Rabs; destruct (Rcase_abs x); ring).
  rewrite (Q (vx q - vx p)), (Q (vy q - vy p)). nra.
Qed.

Definition all_inbox (g : graph) : Prop := forall n, In n (nodes g) -> inbox (position n).

Lemma inbox_zero : inbox (P2 (c0 : F) (c0 : F)).
Proof. split; [split; reflexivity|]. cbn [vx vy]. change (B2R (c0 : F)) with 0. rewrite Rabs_R0. split; apply bpow_ge_0. Qed.

Lemma pos_inbox : forall (g : graph) i, all_inbox g -> inbox (pos_at (nodes g) i).
Proof.
  intros g i H. unfold pos_at. destruct (nth_error (nodes g) i) as [n|] eqn:E; [apply H; eapply nth_error_In; exact E|].
  exact inbox_zero.
Qed.

(** A new node is the computed crossing of the new edge with an old one. *)
Lemma new_node_source : forall (g : graph) s d u g' r, add_edge dT g s d u = Ok (g', r) ->
  exists new, nodes g' = nodes g ++ new /\ forall n, In n new ->
  exists e, In e (edges g) /\ calculate_line_segment_intersection (pos_at (nodes g) (src e)) (pos_at (nodes g) (dst e))
    (pos_at (nodes g) s) (pos_at (nodes g) d) = Some (position n).
Proof.
  intros g s d u g' r H. destruct (add_edge_points (FO_laws lm) dT g s d u g' r H) as (qs & Hn & Hq & _).
  eexists. split; [exact Hn|]. intros n Hin. apply in_map_iff in Hin. destruct Hin as (p & <- & Hin). cbn [position].
  apply Hq in Hin. unfold crossings in Hin. apply in_flat_map in Hin. destruct Hin as (e & He & Hin). exists e. split; [exact He|].
  destruct (calculate_line_segment_intersection (pos_at (nodes g) (src e)) (pos_at (nodes g) (dst e)) (pos_at (nodes g) s) (pos_at (nodes g) d)) as [x|];
    cbn [In] in Hin; [|contradiction]. destruct Hin as [<-|[]]. reflexivity.
Qed.

Lemma crossing_node : forall (g : graph) s d u g' r, all_inbox g -> add_edge dT g s d u = Ok (g', r) ->
  ~ adjacent g s d -> (s < length (nodes g))%nat -> (d < length (nodes g))%nat ->
  forall k e, nth_error (edges g) k = Some e ->
  let A := rp (pos_at (nodes g) (src e)) in let B := rp (pos_at (nodes g) (dst e)) in
  let C := rp (pos_at (nodes g) s) in let D := rp (pos_at (nodes g) d) in
  cross A B C D <> 0 -> 100 * u32 * cond A B C D <= 1 ->
  forall t v, along A B t = along C D v ->
  let et := par_err A B C D in let ev := par_err C D A B in
  et <= t <= 1 - et -> ev <= v <= 1 - ev ->
  let err := lerp_err (vx A) (vx B) + et * Rabs (vx B - vx A) + (lerp_err (vy A) (vy B) + et * Rabs (vy B - vy A)) in
  (forall k' e' q, k' <> k -> nth_error (edges g) k' = Some e' ->
     calculate_line_segment_intersection (pos_at (nodes g) (src e')) (pos_at (nodes g) (dst e'))
       (pos_at (nodes g) s) (pos_at (nodes g) d) = Some q ->
     eps32 * (1 + 4 * u32) + err <= dist (along A B t) (rp q)) ->
  exists n, In n (nodes g') /\ dist (along A B t) (rp (position n)) < err + eps32 * (1 + 4 * u32).
Proof.
  intros g s d u g' r Box H NA Hs Hd k e He A B C D HX HC t v E et ev Ht Hv err Iso.
  set (a := pos_at (nodes g) (src e)) in *. set (b := pos_at (nodes g) (dst e)) in *.
  set (c := pos_at (nodes g) s) in *. set (dd := pos_at (nodes g) d) in *.
  assert (Ba : inbox a) by now apply pos_inbox. assert (Bb : inbox b) by now apply pos_inbox.
  assert (Bc : inbox c) by now apply pos_inbox. assert (Bd : inbox dd) by now apply pos_inbox.
  destruct (seg_accurate lm a b c dd Ba Bb Bc Bd HX HC t v E) as [Ex Acc].
  destruct (Ex Ht Hv) as [p Hp]. destruct (Acc p Hp) as (_ & _ & [Fx Wx] & [Fy Wy]).
  assert (Pe : dist (along A B t) (rp p) <= err).
  { eapply Rle_trans; [apply dist_coords|]. unfold err, et. apply Rplus_le_compat; [exact Wx|exact Wy]. }
  destruct (add_edge_points (FO_laws lm) dT g s d u g' r H) as (qs & Hn & Hq & Hk).
  assert (Fin : forall n, In n (nodes g') -> pfin (position n)).
  { intros n Hin. rewrite Hn in Hin. apply in_app_or in Hin. destruct Hin as [Hin|Hin]; [apply Box in Hin; apply Hin|].
    apply in_map_iff in Hin. destruct Hin as (q & <- & Hin). cbn [position]. apply Hq in Hin.
    unfold crossings in Hin. apply in_flat_map in Hin. destruct Hin as (e' & He' & Hin).
    destruct (calculate_line_segment_intersection (pos_at (nodes g) (src e')) (pos_at (nodes g) (dst e')) (pos_at (nodes g) s) (pos_at (nodes g) d)) as [x|] eqn:Ec;
      cbn [In] in Hin; [|contradiction]. destruct Hin as [<-|[]].
    destruct (seg_on lm _ _ _ _ _ (pos_inbox g (src e') Box) (pos_inbox g (dst e') Box) Ec) as (_ & _ & [X1 _] & [X2 _]). split; assumption. }
  destruct (crossings_split g c dd (edges g) k e p He Hp) as (j & Hj & Hoth).
  destruct (Hk NA Hs Hd j p Hj) as (n & Hin & Hc).
  { intros p' k' q Hp' Hq' Hne. assert (Epp : p' = p).
    { change (nth_error (crossings g c dd (edges g)) j = Some p') in Hp'. rewrite Hj in Hp'. now inversion Hp'. }
    subst p'. destruct (Hoth k' q Hne Hq') as (k2 & e2 & Hk2 & He2 & Hc2).
    pose proof (Iso k2 e2 q Hk2 He2 Hc2) as Far.
    assert (Fq : pfin q).
    { destruct (seg_on lm _ _ _ _ _ (pos_inbox g (src e2) Box) (pos_inbox g (dst e2) Box) Hc2) as (_ & _ & [X1 _] & [X2 _]). split; assumption. }
    unfold close_to. apply not_true_is_false. intros Cl.
    pose proof (proj1 (le_eps_real lm p q (conj Fx Fy) Fq) Cl) as Near.
    pose proof (triangle (along A B t) (rp p) (rp q)). cbv zeta in Near. lra. }
  exists n. split; [exact Hin|].
  assert (0 < eps32 * (1 + 4 * u32)) by (unfold eps32, u32; pose proof (bpow_gt_0 radix2 (-23)); nra).
  destruct Hc as [<-|Hc]; [lra|].
  pose proof (proj1 (lt_eps_real lm p (position n) (conj Fx Fy) (Fin n Hin)) Hc) as Near. cbv zeta in Near.
  pose proof (triangle (along A B t) (rp p) (rp (position n))). lra.
Qed.
End F32.
