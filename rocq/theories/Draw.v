(** * A planar drawing is determined by its nodes and its picture; the order of drawing
    does not matter; lengths. *)
From Coq Require Import Reals List Arith Bool Lia Lra Permutation Classical.
From Verif Require Import Scalar Utils Graph GraphSpec ListSpec Laws Closest PlaneSpec UtilsReal
  PlanarSpec GraphAdd GraphAddProps GraphRemove GraphHistory GraphPlanar DrawSpec.
Import ListNotations.
Local Open Scope R_scope.

(** ** One of finitely many sets that cover an interval contains two points of it *)
Lemma avoid : forall (l : list (R -> Prop)) a b, a < b ->
  (forall P, In P l -> forall s t, a < s < b -> a < t < b -> P s -> P t -> s = t) ->
  exists a' b', a <= a' /\ a' < b' /\ b' <= b /\ forall P t, In P l -> a' < t < b' -> ~ P t.
Proof.
  induction l as [|P l IH]; intros a b Hab H.
  - exists a, b. repeat split; try lra. intros P t [].
  - destruct (IH a b Hab) as (a' & b' & H1 & H2 & H3 & H4); [intros Q HQ; apply H; now right|].
    destruct (classic (exists t, a' < t < b' /\ P t)) as [(t & Ht & HP)|N].
    + exists t, b'. repeat split; try lra. intros Q s [<-|HQ] Hs HQs.
      * assert (s = t) by (apply (H P (or_introl eq_refl)); lra || assumption). lra.
      * apply (H4 Q s HQ); [lra|exact HQs].
    + exists a', b'. repeat split; try lra. intros Q s [<-|HQ] Hs HQs; [apply N; now exists s|exact (H4 Q s HQ Hs HQs)].
Qed.

Lemma two_points : forall (l : list (R -> Prop)), (forall t, 0 < t < 1 -> exists P, In P l /\ P t) ->
  exists P s t, In P l /\ 0 < s < 1 /\ 0 < t < 1 /\ s < t /\ P s /\ P t.
Proof.
  intros l H. apply NNPP. intros N. destruct (avoid l 0 1) as (a & b & H1 & H2 & H3 & H4); [lra| |].
  - intros P HP s t Hs Ht Ps Pt. destruct (Rtotal_order s t) as [L|[E|L]]; [|exact E|]; exfalso; apply N.
    + exists P, s, t. auto 10.
    + exists P, t, s. auto 10.
  - destruct (H ((a + b) / 2)) as (P & HP & Q); [lra|]. exact (H4 P ((a + b) / 2) HP ltac:(lra) Q).
Qed.

(** ** Segments on one line *)
Lemma along_along : forall a b s t w, along (along a b s) (along a b t) w = along a b (s + w * (t - s)).
Proof. intros a b s t w. unfold along. cbn [vx vy]. f_equal; ring. Qed.

Lemma along_inj : forall a b s t, a <> b -> along a b s = along a b t -> s = t.
Proof.
  intros [ax ay] [bx by_] s t N E. unfold along in E. cbn [vx vy] in E. injection E as E1 E2.
  destruct (Req_dec (bx - ax) 0) as [Z1|Z1]; [destruct (Req_dec (by_ - ay) 0) as [Z2|Z2]|].
  - exfalso. apply N. f_equal; lra.
  - apply (Rmult_eq_reg_r (by_ - ay)); lra.
  - apply (Rmult_eq_reg_r (bx - ax)); lra.
Qed.

Lemma along_inj0 : forall a b z, a <> b -> along a b z = a -> z = 0.
Proof. intros a b z N E. apply (along_inj a b); [exact N|]. now rewrite along_0. Qed.
Lemma along_inj1 : forall a b z, a <> b -> along a b z = b -> z = 1.
Proof. intros a b z N E. apply (along_inj a b); [exact N|]. now rewrite along_1. Qed.

(** Two points of [c d] on the line [a b], at different places: [c] and [d] are on it. *)
Lemma on_both : forall a b c d v w s t, a <> b -> s <> t -> along a b s = along c d v -> along a b t = along c d w ->
  exists p q, c = along a b p /\ d = along a b q /\ s = p + v * (q - p) /\ t = p + w * (q - p).
Proof.
  intros a b c d v w s t Nab N E1 E2. assert (Nv : v <> w).
  { intros ->. rewrite <- E2 in E1. now apply N, (along_inj a b). }
  assert (Cv : c = along (along c d v) (along c d w) (- v / (w - v))).
  { rewrite along_along. replace (v + - v / (w - v) * (w - v)) with 0 by (field; lra). now rewrite along_0. }
  assert (Dv : d = along (along c d v) (along c d w) ((1 - v) / (w - v))).
  { rewrite along_along. replace (v + (1 - v) / (w - v) * (w - v)) with 1 by (field; lra). now rewrite along_1. }
  rewrite <- E1, <- E2, along_along in Cv, Dv.
  exists (s + - v / (w - v) * (t - s)), (s + (1 - v) / (w - v) * (t - s)). split; [exact Cv|]. split; [exact Dv|]. split; field; lra.
Qed.

Lemma in_pt : forall ps x, In x ps <-> exists k, (k < length ps)%nat /\ x = pt ps k.
Proof.
  intros ps x. split.
  - intros H. destruct (In_nth _ _ (P2 0 0) H) as (k & Hk & E). exists k. split; [exact Hk|]. now symmetry.
  - intros (k & Hk & ->). now apply nth_In.
Qed.
Lemma pt_inj : forall ps i j, NoDup ps -> (i < length ps)%nat -> (j < length ps)%nat -> pt ps i = pt ps j -> i = j.
Proof. intros ps i j N Hi Hj E. exact (proj1 (NoDup_nth ps (P2 0 0)) N i j Hi Hj E). Qed.

Section Unique.
Context {U V : Type}.
Variables (ps qs : list point) (es : list (Edge U)) (fs : list (Edge V)).
Hypothesis D1 : plane_drawing ps es.
Hypothesis D2 : plane_drawing qs fs.
Hypothesis N : forall x, In x ps <-> In x qs.
Hypothesis C : forall x, covers ps es x -> covers qs fs x.

Lemma node_end : forall W (rs : list point) (ds : list (Edge W)) e x, plane_drawing rs ds -> In e ds -> In x rs -> edge_on rs e x ->
  x = pt rs (src e) \/ x = pt rs (dst e).
Proof.
  intros W rs ds e x (_ & _ & P & _) He Hx On. apply in_pt in Hx. destruct Hx as (k & Hk & ->).
  destruct (classic (touches k e)) as [[<-|<-]|NT]; [now left|now right|]. exfalso. exact (P k e Hk He NT On).
Qed.

Lemma edge_same : forall e, In e es -> exists f, In f fs /\ same_ends ps e qs f.
Proof.
  intros e He. pose proof D1 as (Nd & V1 & _). destruct (V1 e He) as (Ne & L1 & L2).
  assert (Nab : pt ps (src e) <> pt ps (dst e)) by (intros E; apply Ne; now apply (pt_inj ps)).
  destruct (two_points (map (fun f t => edge_on qs f (along (pt ps (src e)) (pt ps (dst e)) t)) fs)) as (P & s & t & HP & Hs & Ht & Lt & Ps & Pt).
  { intros t Ht. destruct (C (along (pt ps (src e)) (pt ps (dst e)) t)) as (f & Hf & On).
    - exists e. split; [exact He|]. exists t. split; [lra|reflexivity].
    - exists (fun t => edge_on qs f (along (pt ps (src e)) (pt ps (dst e)) t)). split; [|exact On].
      apply in_map_iff. exists f. auto. }
  apply in_map_iff in HP. destruct HP as (f & <- & Hf). exists f. split; [exact Hf|].
  destruct Ps as (v & Hv & E1). destruct Pt as (w & Hw & E2).
  destruct (on_both _ _ _ _ _ _ _ _ Nab (Rlt_not_eq _ _ Lt) E1 E2) as (p & q & Ec & Ed & Es & Et).
  pose proof D2 as (_ & V2 & _). destruct (V2 f Hf) as (Nf & M1 & M2).
  set (a := pt ps (src e)) in *. set (b := pt ps (dst e)) in *. set (c := pt qs (src f)) in *. set (d := pt qs (dst f)) in *.
  assert (Ia : In a qs) by (apply N, in_pt; exists (src e); auto). assert (Ib : In b qs) by (apply N, in_pt; exists (dst e); auto).
  assert (Ic : In c ps) by (apply N, in_pt; exists (src f); auto). assert (Id : In d ps) by (apply N, in_pt; exists (dst f); auto).
  assert (Out : forall z, In (along a b z) ps -> z <= 0 \/ 1 <= z).
  { intros z Hz. destruct (Rle_dec z 0) as [?|Z0]; [now left|]. destruct (Rle_dec 1 z) as [?|Z1]; [now right|]. exfalso.
    destruct (node_end _ ps es e _ D1 He Hz) as [E|E].
    - exists z. split; [lra|reflexivity].
    - fold a in E. apply along_inj0 in E; [lra|exact Nab].
    - fold b in E. apply along_inj1 in E; [lra|exact Nab]. }
  assert (Npq : p <> q) by (intros ->; lra).
  assert (Inn : forall z, In (along a b z) qs -> 0 <= (z - p) / (q - p) <= 1 -> z = p \/ z = q).
  { intros z Hz Hr. destruct (node_end _ qs fs f _ D2 Hf Hz) as [E|E].
    - exists ((z - p) / (q - p)). split; [exact Hr|]. fold c d. rewrite Ec, Ed, along_along. f_equal. field. lra.
    - left. fold c in E. rewrite Ec in E. now apply (along_inj a b) in E.
    - right. fold d in E. rewrite Ed in E. now apply (along_inj a b) in E. }
  rewrite Ec in Ic. rewrite Ed in Id. apply Out in Ic, Id.
  pose proof (Inn 0) as I0. rewrite along_0 in I0. specialize (I0 Ia). pose proof (Inn 1) as I1. rewrite along_1 in I1. specialize (I1 Ib).
  destruct (Rtotal_order p q) as [L|[E|L]]; [|contradiction|].
  - assert (p <= s) by (rewrite Es; assert (0 <= v * (q - p)) by (apply Rmult_le_pos; lra); lra).
    assert (t <= q) by (rewrite Et; assert (w * (q - p) <= 1 * (q - p)) by (apply Rmult_le_compat_r; lra); lra).
    assert (p = 0 /\ q = 1) as [-> ->].
    { assert (p <= 0) by lra. assert (1 <= q) by lra.
      assert (B : forall z, p <= z <= q -> 0 <= (z - p) / (q - p) <= 1).
      { intros z Hz. split; [apply Rmult_le_pos; [lra|apply Rlt_le, Rinv_0_lt_compat; lra]|]. apply (Rmult_le_reg_r (q - p)); [lra|].
        unfold Rdiv. rewrite Rmult_assoc, Rinv_l by lra. lra. }
      specialize (I0 (B 0 ltac:(lra))). specialize (I1 (B 1 ltac:(lra))). lra. }
    left. rewrite along_0 in Ec. rewrite along_1 in Ed. now split.
  - assert (s <= p) by (rewrite Es; assert (0 <= v * (p - q)) by (apply Rmult_le_pos; lra); lra).
    assert (q <= t) by (rewrite Et; assert (w * (p - q) <= 1 * (p - q)) by (apply Rmult_le_compat_r; lra); lra).
    assert (q <= s) by (rewrite Es; assert (v * (p - q) <= 1 * (p - q)) by (apply Rmult_le_compat_r; lra); lra).
    assert (t <= p) by (rewrite Et; assert (0 <= w * (p - q)) by (apply Rmult_le_pos; lra); lra).
    assert (q = 0 /\ p = 1) as [-> ->].
    { assert (q <= 0) by lra. assert (1 <= p) by lra.
      assert (B : forall z, q <= z <= p -> 0 <= (z - p) / (q - p) <= 1).
      { intros z Hz. replace ((z - p) / (q - p)) with ((p - z) / (p - q)) by (field; lra).
        split; [apply Rmult_le_pos; [lra|apply Rlt_le, Rinv_0_lt_compat; lra]|]. apply (Rmult_le_reg_r (p - q)); [lra|].
        unfold Rdiv. rewrite Rmult_assoc, Rinv_l by lra. lra. }
      specialize (I0 (B 0 ltac:(lra))). specialize (I1 (B 1 ltac:(lra))). lra. }
    right. rewrite along_1 in Ec. rewrite along_0 in Ed. now split.
Qed.

(** Edges of the first drawing are matched with different edges of the second. *)
Lemma no_parallel_pos : forall W (rs : list point) (ds : list (Edge W)) i j e f, plane_drawing rs ds ->
  nth_error ds i = Some e -> nth_error ds j = Some f -> same_ends rs e rs f -> i = j.
Proof.
  intros W rs ds i j e f (Nd & V0 & _ & P) Hi Hj S. destruct (Nat.eq_dec i j) as [|Nij]; [assumption|]. exfalso.
  destruct (V0 e (nth_error_In _ _ Hi)) as (Ne & L1 & L2).
  assert (Nab : pt rs (src e) <> pt rs (dst e)) by (intros E; apply Ne; now apply (pt_inj rs)).
  destruct (P i j e f (along (pt rs (src e)) (pt rs (dst e)) (/ 2)) Nij Hi Hj) as (k & [<-|<-] & _ & E).
  - exists (/ 2). split; [lra|reflexivity].
  - destruct S as [[<- <-]|[<- <-]]; [exists (/ 2); split; [lra|reflexivity]|]. apply on_sym. exists (/ 2). split; [lra|reflexivity].
  - apply along_inj0 in E; [lra|exact Nab].
  - apply along_inj1 in E; [lra|exact Nab].
Qed.

Lemma injection_length : forall (n m : nat) (R : nat -> nat -> Prop), (forall i, (i < n)%nat -> exists j, (j < m)%nat /\ R i j) ->
  (forall i i' j, (i < n)%nat -> (i' < n)%nat -> R i j -> R i' j -> i = i') -> (n <= m)%nat.
Proof.
  intros n m R H I. assert (G : forall k, (k <= n)%nat -> exists l, length l = k /\ NoDup l /\ (forall j, In j l -> (j < m)%nat /\ exists i, (i < k)%nat /\ R i j)).
  { induction k as [|k IH]; intros Hk; [exists []; repeat split; [constructor|destruct H0|destruct H0]|].
    destruct IH as (l & L & ND & Hl); [lia|]. destruct (H k) as (j & Hj & Rj); [lia|]. exists (j :: l). split; [simpl; now rewrite L|]. split.
    - constructor; [|exact ND]. intros Hin. destruct (Hl j Hin) as (_ & i & Hi & Ri). assert (i = k) by (apply (I i k j); lia || assumption). lia.
    - intros j' [<-|Hin]; [split; [exact Hj|exists k; split; [lia|exact Rj]]|]. destruct (Hl j' Hin) as (Hm & i & Hi & Ri). split; [exact Hm|]. exists i. split; [lia|exact Ri]. }
  destruct (G n (le_n n)) as (l & L & ND & Hl). rewrite <- L, <- (seq_length m 0). apply NoDup_incl_length; [exact ND|].
  intros j Hj. apply in_seq. destruct (Hl j Hj). lia.
Qed.

Lemma edges_le : (length es <= length fs)%nat.
Proof.
  apply (injection_length _ _ (fun i j => exists e f, nth_error es i = Some e /\ nth_error fs j = Some f /\ same_ends ps e qs f)).
  - intros i Hi. destruct (nth_error es i) as [e|] eqn:E; [|apply nth_error_None in E; lia].
    destruct (edge_same e (nth_error_In _ _ E)) as (f & Hf & S). apply In_nth_error in Hf. destruct Hf as (j & Hj).
    exists j. split; [apply nth_error_Some; congruence|]. exists e, f. auto.
  - intros i i' j Hi Hi' (e & f & E & F & S) (e' & f' & E' & F' & S'). assert (f' = f) by congruence. subst f'.
    apply (no_parallel_pos _ ps es i i' e e' D1 E E'). unfold same_ends in *.
    destruct S as [[A1 A2]|[A1 A2]], S' as [[B1 B2]|[B1 B2]]; rewrite A1, A2, B1, B2; auto.
Qed.
End Unique.

Theorem drawing_unique : forall U V (ps qs : list point) (es : list (Edge U)) (fs : list (Edge V)),
  plane_drawing ps es -> plane_drawing qs fs -> (forall x, In x ps <-> In x qs) ->
  (forall x, covers ps es x <-> covers qs fs x) -> same_drawing ps es qs fs.
Proof.
  intros U V ps qs es fs D1 D2 N C. assert (N' : forall x, In x qs <-> In x ps) by (intros; symmetry; apply N).
  split; [exact N|]. split; [|split; [|split]].
  - apply Nat.le_antisymm; apply NoDup_incl_length; [apply D1|intros x; apply N|apply D2|intros x; apply N].
  - apply Nat.le_antisymm; [apply (edges_le ps qs es fs D1 D2 N)|apply (edges_le qs ps fs es D2 D1 N')]; intros x; apply C.
  - apply (edge_same ps qs es fs D1 D2 N). intros x. apply C.
  - intros f Hf. destruct (edge_same qs ps fs es D2 D1 N' (fun x => proj2 (C x)) f Hf) as (e & He & S).
    exists e. split; [exact He|]. destruct S as [[A1 A2]|[A1 A2]]; [left|right]; split; congruence.
Qed.

(** ** Which nodes add_edge creates, and lengths *)
Lemma well_plane : forall U (ps : list point) (es : list (Edge U)), well_drawn ps es -> plane_drawing ps es.
Proof.
  intros U ps es (V & A & _ & P). split; [|split; assumption]. apply (NoDup_nth ps (P2 0 0)). intros i j Hi Hj E.
  destruct (Nat.eq_dec i j) as [|N]; [assumption|]. exfalso. pose proof (A i j Hi Hj N) as D. unfold pt in D. rewrite E, dist_self0 in D. pose proof eps32_pos. lra.
Qed.

Section Length.
Context {U : Type}.
Lemma total_app : forall ps (a b : list (Edge U)), total_length ps (a ++ b) = total_length ps a + total_length ps b.
Proof. intros ps a b. unfold total_length. induction a as [|e a IH]; cbn [app map fold_right]; [lra|]. rewrite IH. lra. Qed.
Lemma total_ext : forall ps qs (es : list (Edge U)), (forall e, In e es -> (src e < length ps)%nat /\ (dst e < length ps)%nat) ->
  total_length (ps ++ qs) es = total_length ps es.
Proof.
  intros ps qs es H. unfold total_length. induction es as [|e es IH]; [reflexivity|]. cbn [map fold_right]. rewrite IH by (intros; apply H; now right).
  destruct (H e) as [H1 H2]; [now left|]. now rewrite !pt_app.
Qed.
Lemma total_split : forall ps x on (es : list (Edge U)), (forall e, In e es -> (src e < length ps)%nat /\ (dst e < length ps)%nat) ->
  (forall e, In e es -> on e = true -> edge_on ps e x) ->
  total_length (ps ++ [x]) (split_edges on (length ps) es) = total_length ps es.
Proof.
  intros ps x on es. unfold split_edges. rewrite total_app. unfold total_length. induction es as [|e es IH]; intros V H; [cbn; lra|].
  cbn [map filter fold_right]. destruct (V e) as [V1 V2]; [now left|].
  specialize (IH (fun f Hf => V f (or_intror Hf)) (fun f Hf => H f (or_intror Hf))).
  destruct (on e) eqn:E; cbn [map fold_right half1 half2 src dst].
  - pose proof (on_segment_dist _ _ _ (H e (or_introl eq_refl) E)) as D. rewrite pt_new, !pt_app by assumption. rewrite (dist_sym x) in D. lra.
  - rewrite !pt_app by assumption. lra.
Qed.
End Length.

Section Full.
Context {T U : Type} (dT : T).
Local Notation graph := (PlanarGraph XO T U).

Lemma split_points_full : forall pend (g g' : graph) ps cn ce r, drawn g ps -> inv_drawn ps (edges g) pend ->
  split_at_points dT g (map xp pend) cn ce = Ok (g', r) ->
  exists qs, drawn g' (ps ++ qs) /\ (forall y, In y pend -> In y (ps ++ qs)) /\
    total_length (ps ++ qs) (edges g') = total_length ps (edges g).
Proof.
  induction pend as [|p pend IH]; intros g g' ps cn ce r D I H; cbn [map split_at_points] in H.
  - inversion H; subst. exists []. rewrite app_nil_r. split; [exact D|]. split; [easy|reflexivity].
  - destruct (find_closest_to (xp p) (gather_node_positions g)) as [j dd] eqn:Fc.
    destruct (drawn_closest _ _ _ _ _ D Fc) as [Hc Hf].
    pose proof (proj1 (proj2 (proj2 (proj2 (proj2 I)))) p (or_introl eq_refl)) as Lp.
    destruct (olt dd ceps) eqn:L.
    + destruct (Hc eq_refl) as [Hj Hd].
      destruct Lp as [(k & Hk & Ek)|F]; [|pose proof (proj1 F j Hj); lra].
      assert (k = j).
      { destruct (Nat.eq_dec k j) as [|N]; [assumption|]. exfalso.
        pose proof (proj1 (proj2 I) k j Hk Hj N) as A. rewrite <- Ek in A. lra. }
      subst k. apply bind_ok in H. destruct H as ([g1 ces] & H1 & H).
      apply split_at_node_ok in H1. destruct H1 as (Hn & H1).
      assert (E1 : edges g1 = edges g).
      { destruct H1 as [(_ & -> & _)|(_ & E & _)]; [reflexivity|]. rewrite E. apply split_noop.
        intros e Hin. destruct (on_edge (nodes g) j e) eqn:O; [|reflexivity]. exfalso.
        destruct (proj1 I e Hin) as (_ & Hs' & Hd').
        apply (drawn_on _ ps) in O; auto. exact (proj1 (proj2 (proj2 I)) j e Hj Hin O). }
      assert (D1 : drawn g1 ps) by (unfold drawn; now rewrite Hn).
      subst p. assert (I1 : inv_drawn ps (edges g1) pend) by (rewrite E1; eapply drop_node; eassumption).
      destruct (IH g1 g' ps _ _ _ D1 I1 H) as (qs & Q1 & Q2 & Q3).
      exists qs. rewrite E1 in Q3. split; [exact Q1|]. split; [|exact Q3].
      intros y [<-|Hy]; [|now apply Q2]. apply in_or_app. left. apply in_pt. now exists j.
    + apply bind_ok in H. destruct H as ([g1 [ni ces]] & H1 & H).
      assert (F : fresh ps (edges g) p).
      { destruct Lp as [(k & Hk & Ek)|F]; [|exact F]. exfalso. specialize (Hf eq_refl k Hk).
        rewrite <- Ek, dist_self0 in Hf. pose proof eps32_pos. lra. }
      destruct (add_fresh _ _ _ _ _ _ _ _ D I F H1) as (D1 & I1 & C1).
      destruct (IH g1 g' (ps ++ [p]) _ _ _ D1 I1 H) as (qs & Q1 & Q2 & Q3).
      exists (p :: qs). rewrite <- app_assoc in *. split; [exact Q1|]. split.
      * intros y [<-|Hy]; [apply in_or_app; right; now left|]. now apply Q2.
      * cbn [app] in Q3. rewrite Q3. apply add_node_ok in H1.
        destruct H1 as [(d2 & Fc2 & L2 & _)|(d2 & j2 & Fc2 & L2 & Ei & Hn & He & _)].
        { exfalso. destruct (drawn_closest _ _ _ _ _ D Fc2) as [B _]. destruct (B L2) as [B1 B2]. pose proof (proj1 F _ B1). lra. }
        rewrite (drawn_length _ _ D) in Ei. rewrite He, Ei. apply total_split.
        -- intros e Hin. destruct (proj1 I e Hin). tauto.
        -- intros e Hin On. apply (proj2 F e Hin). destruct (proj1 I e Hin) as (_ & Hs & Hd).
           apply (drawn_on _ (ps ++ [p])) in On; try (rewrite app_length; cbn [length]; lia).
           ++ rewrite pt_new in On. now apply (edge_near_app ps [p] (edges g) e p (proj1 I) Hin).
           ++ exact D1.
Qed.

(** Drawing an edge: the crossings, and the length. *)
Lemma add_edge_full : forall (g g' : graph) ps s d u r, drawn g ps ->
  well_drawn ps (edges g) -> general_position ps (edges g) s d -> s <> d ->
  ~ adjacent g s d -> (s < length ps)%nat -> (d < length ps)%nat ->
  add_edge dT g s d u = Ok (g', r) ->
  exists qs, drawn g' (ps ++ qs) /\ well_drawn (ps ++ qs) (edges g') /\
    (forall x, covers (ps ++ qs) (edges g') x <-> covers ps (edges g) x \/ on_segment (pt ps s) (pt ps d) x) /\
    (forall x, In x (ps ++ qs) <-> In x ps \/ (on_segment (pt ps s) (pt ps d) x /\ covers ps (edges g) x)) /\
    total_length (ps ++ qs) (edges g') = total_length ps (edges g) + dist (pt ps s) (pt ps d).
Proof.
  intros g g' ps s d u r D W GP Nsd NA Hs Hd H.
  destruct (add_edge_planar dT g g' ps s d u r D W GP Nsd NA Hs Hd H) as (qs & Q1 & Q2 & Q3 & Q4).
  destruct (add_edge_pending dT g g' ps s d u r D W GP Nsd NA Hs Hd H) as (pend & ns & es & D1 & I & H1 & _ & Y).
  destruct (split_points_full pend _ g' ps _ _ _ D1 I H1) as (qs' & R1 & R2 & R3).
  rewrite (drawn_fun _ _ _ R1 Q1) in R2, R3. exists qs. split; [exact Q1|]. split; [exact Q2|]. split; [exact Q3|]. split.
  - intros x. split.
    + intros Hx. apply in_app_or in Hx. destruct Hx as [Hx|Hx]; [now left|]. right. destruct (Q4 x Hx) as (_ & _ & A & B). now split.
    + intros [Hx|[On Cx]]; [apply in_or_app; now left|]. destruct Cx as (e & He & Oe).
      destruct I as (V & _ & _ & M & _). unfold with_edge in M, V. cbn [edges] in M, V.
      apply In_nth_error in He. destruct He as (i & Hi). assert (Li : (i < length (edges g))%nat) by (apply nth_error_Some; congruence).
      destruct (proj1 (pairs_nth _ (meet_sym ps pend) _) M i (length (edges g)) e (MkEdge s d u DEFAULT_LABEL)) with (x := x) as [(k & _ & Tk & ->)|Hp].
      * lia.
      * now rewrite nth_error_app1.
      * now rewrite nth_error_app2, Nat.sub_diag by lia.
      * exact Oe.
      * exact On.
      * apply in_or_app. left. apply in_pt. destruct Tk as [<-|<-]; [exists s|exists d]; auto.
      * now apply R2.
  - rewrite R3. unfold with_edge. cbn [edges]. rewrite total_app. unfold total_length at 2. cbn [map fold_right src dst]. lra.
Qed.
End Full.

(** ** The order of drawing *)
Section Order.
Context {T U : Type} (dT : T).
Local Notation graph := (PlanarGraph XO T U).
Local Notation call := (nat * nat * U)%type.
Definition seg (ps : list point) (c : nat * nat) (x : point) : Prop := on_segment (pt ps (fst c)) (pt ps (snd c)) x.
Definition twice (ps : list point) (l : list (nat * nat)) (x : point) : Prop :=
  exists a b l', Permutation l (a :: b :: l') /\ seg ps a x /\ seg ps b x.

Lemma twice_cons : forall ps c l x, twice ps (c :: l) x <-> (seg ps c x /\ exists a, In a l /\ seg ps a x) \/ twice ps l x.
Proof.
  intros ps c l x. split.
  - intros (a & b & l' & P & Sa & Sb). assert (Hc : In c (a :: b :: l')) by (apply (Permutation_in c P); now left).
    destruct Hc as [<-|[<-|Hc]].
    + apply Permutation_cons_inv in P. left. split; [exact Sa|]. exists b. split; [apply (Permutation_in b (Permutation_sym P)); now left|exact Sb].
    + assert (P' : Permutation (b :: l) (b :: a :: l')) by (rewrite P; apply perm_swap). apply Permutation_cons_inv in P'.
      left. split; [exact Sb|]. exists a. split; [apply (Permutation_in a (Permutation_sym P')); now left|exact Sa].
    + apply in_split in Hc. destruct Hc as (l1 & l2 & ->). right. exists a, b, (l1 ++ l2). split; [|auto].
      apply (Permutation_cons_inv (a := c)). rewrite P. symmetry. change (a :: b :: l1 ++ c :: l2) with ((a :: b :: l1) ++ c :: l2).
      now apply (Permutation_cons_app (a :: b :: l1) l2).
  - intros [(Sc & a & Ha & Sa)|(a & b & l' & P & Sa & Sb)].
    + apply in_split in Ha. destruct Ha as (l1 & l2 & ->). exists c, a, (l1 ++ l2). split; [|auto]. constructor. symmetry. apply Permutation_middle.
    + exists a, b, (c :: l'). split; [|auto]. rewrite P. transitivity (a :: c :: b :: l'); [apply perm_swap|constructor; apply perm_swap].
Qed.

Definition inside (ps : list point) (l : list (nat * nat)) : Prop := forall c, In c l -> (fst c < length ps)%nat /\ (snd c < length ps)%nat.
Lemma seg_app : forall ps qs l c x, inside ps l -> In c l -> seg (ps ++ qs) c x <-> seg ps c x.
Proof. intros ps qs l c x H Hc. destruct (H c Hc) as [H1 H2]. unfold seg. now rewrite !pt_app. Qed.
Lemma twice_app : forall ps qs l x, inside ps l -> twice (ps ++ qs) l x <-> twice ps l x.
Proof.
  intros ps qs l x H. split; intros (a & b & l' & P & Sa & Sb); exists a, b, l'; (split; [exact P|]);
    (assert (In a l) by (apply (Permutation_in a (Permutation_sym P)); now left)); (assert (In b l) by (apply (Permutation_in b (Permutation_sym P)); right; now left));
    [rewrite (seg_app ps qs l a x H) in Sa by assumption; rewrite (seg_app ps qs l b x H) in Sb by assumption
    |rewrite (seg_app ps qs l a x H) by assumption; rewrite (seg_app ps qs l b x H) by assumption]; auto.
Qed.

Lemma draws_picture : forall l (g g' : graph) ps, draws dT g l g' -> drawn g ps -> well_drawn ps (edges g) -> inside ps (map fst l) ->
  exists qs, drawn g' (ps ++ qs) /\ well_drawn (ps ++ qs) (edges g') /\
    (forall x, covers (ps ++ qs) (edges g') x <-> covers ps (edges g) x \/ exists c, In c (map fst l) /\ seg ps c x) /\
    (forall x, In x (ps ++ qs) <-> In x ps \/ (exists c, In c (map fst l) /\ seg ps c x /\ covers ps (edges g) x) \/ twice ps (map fst l) x) /\
    total_length (ps ++ qs) (edges g') = total_length ps (edges g) + fold_right Rplus 0 (map (fun c => dist (pt ps (fst c)) (pt ps (snd c))) (map fst l)).
Proof.
  induction l as [|[[s d] u] l IH]; intros g g' ps H D W I.
  - inversion H; subst. exists []. rewrite app_nil_r. split; [exact D|]. split; [exact W|]. split; [|split].
    + intros x. split; [auto|]. intros [Hx|(c & [] & _)]. exact Hx.
    + intros x. split; [auto|]. intros [Hx|[(c & [] & _)|(a & b & l' & P & _)]]; [exact Hx|]. apply Permutation_nil in P. discriminate.
    + cbn. lra.
  - inversion H as [|g0 ps0 s0 d0 u0 l0 g1 r g2 D0 Nsd NA GP Ha Hl]; subst. rewrite (drawn_fun _ _ _ D0 D) in GP.
    destruct (I (s, d)) as [Ls Ld]; [now left|]. cbn [fst snd] in Ls, Ld.
    destruct (add_edge_full dT g g1 ps s d u r D W GP Nsd NA Ls Ld Ha) as (q1 & D1 & W1 & C1 & N1 & T1).
    assert (I0 : inside ps (map fst l)) by (intros c Hc; apply I; now right).
    assert (I1 : inside (ps ++ q1) (map fst l)) by (intros c Hc; destruct (I0 c Hc); rewrite app_length; lia).
    destruct (IH g1 g' (ps ++ q1) Hl D1 W1 I1) as (q2 & D2 & W2 & C2 & N2 & T2). exists (q1 ++ q2). rewrite app_assoc.
    split; [exact D2|]. split; [exact W2|]. cbn [map fst snd]. split; [|split].
    + intros x. rewrite C2, C1. split.
      * intros [[Hx|Hx]|(c & Hc & Sc)]; [now left|right; exists (s, d); split; [now left|exact Hx]|right; exists c].
        rewrite (seg_app ps q1 _ c x I0 Hc) in Sc. split; [now right|exact Sc].
      * intros [Hx|(c & [<-|Hc] & Sc)]; [auto|left; right; exact Sc|right; exists c]. rewrite (seg_app ps q1 _ c x I0 Hc). auto.
    + intros x. rewrite N2, N1, (twice_app ps q1 _ x I0), twice_cons. split.
      * intros [[Hx|[Sx Cx]]|[(c & Hc & Sc & Cc)|Tw]]; [now left| | |tauto].
        -- right. left. exists (s, d). split; [now left|]. split; [exact Sx|exact Cx].
        -- rewrite (seg_app ps q1 _ c x I0 Hc) in Sc. apply C1 in Cc. destruct Cc as [Cc|Cc].
           ++ right. left. exists c. split; [now right|]. auto.
           ++ right. right. left. split; [exact Cc|]. exists c. auto.
      * intros [Hx|[(c & [<-|Hc] & Sc & Cc)|[(Sx & c & Hc & Sc)|Tw]]]; [tauto| | | |tauto].
        -- left. right. split; [exact Sc|exact Cc].
        -- right. left. exists c. split; [exact Hc|]. rewrite (seg_app ps q1 _ c x I0 Hc). split; [exact Sc|]. apply C1. now left.
        -- right. left. exists c. split; [exact Hc|]. rewrite (seg_app ps q1 _ c x I0 Hc). split; [exact Sc|]. apply C1. right. exact Sx.
    + rewrite T2, T1. cbn [fold_right].
      replace (map (fun c => dist (pt (ps ++ q1) (fst c)) (pt (ps ++ q1) (snd c))) (map fst l)) with (map (fun c => dist (pt ps (fst c)) (pt ps (snd c))) (map fst l)); [lra|].
      apply map_ext_in. intros c Hc. destruct (I0 c Hc). now rewrite !pt_app.
Qed.

Theorem draws_order : forall (g g1 g2 : graph) ps l1 l2, drawn g ps -> well_drawn ps (edges g) ->
  Permutation (map fst l1) (map fst l2) -> inside ps (map fst l1) ->
  draws dT g l1 g1 -> draws dT g l2 g2 ->
  exists ps1 ps2, drawn g1 ps1 /\ drawn g2 ps2 /\ same_drawing ps1 (edges g1) ps2 (edges g2).
Proof.
  intros g g1 g2 ps l1 l2 D W P I H1 H2. assert (I2 : inside ps (map fst l2)).
  { intros c Hc. apply I. now apply (Permutation_in c (Permutation_sym P)). }
  destruct (draws_picture l1 g g1 ps H1 D W I) as (q1 & D1 & W1 & C1 & N1 & _).
  destruct (draws_picture l2 g g2 ps H2 D W I2) as (q2 & D2 & W2 & C2 & N2 & _).
  exists (ps ++ q1), (ps ++ q2). split; [exact D1|]. split; [exact D2|].
  assert (PI : forall c, In c (map fst l1) <-> In c (map fst l2)) by (intros c; split; apply Permutation_in; [exact P|now symmetry]).
  apply drawing_unique; [now apply well_plane|now apply well_plane| |].
  - intros x. rewrite N1, N2. assert (Tw : twice ps (map fst l1) x <-> twice ps (map fst l2) x).
    { split; intros (a & b & l' & Q & S); exists a, b, l'; (split; [|exact S]); [now rewrite <- P|now rewrite P]. }
    rewrite Tw. split; (intros [?|[(c & Hc & S)|?]]; [now left|right; left; exists c; split; [now apply PI|exact S]|tauto]).
  - intros x. rewrite C1, C2. split; (intros [?|(c & Hc & S)]; [now left|right; exists c; split; [now apply PI|exact S]]).
Qed.
End Order.

(** ** Lengths under add_node and the removals *)
Section Lengths.
Context {T U : Type} (dT : T).
Local Notation graph := (PlanarGraph XO T U).

Lemma filter_none : forall (f : Edge U -> bool) l, (forall e, In e l -> f e = false) -> filter f l = [].
Proof. intros f l H. induction l as [|e l IH]; [reflexivity|]. cbn [filter]. rewrite (H e) by now left. apply IH. intros; apply H; now right. Qed.
Lemma total_perm : forall ps (a b : list (Edge U)), Permutation a b -> total_length ps a = total_length ps b.
Proof. intros ps a b P. unfold total_length. induction P; cbn [map fold_right]; lra. Qed.

Theorem add_node_length : forall (g g' : graph) ps p d i ces, drawn g ps -> well_drawn ps (edges g) -> good_place ps (edges g) p ->
  add_node g (xp p) d = Ok (g', (i, ces)) ->
  exists ps', drawn g' ps' /\ total_length ps' (edges g') = total_length ps (edges g).
Proof.
  intros g g' ps p d i ces D W G H. pose proof (proj1 W) as V. apply add_node_ok in H.
  destruct H as [(dd & Fc & L & -> & _)|(dd & j & Fc & L & Ei & Hn & He & _)]; [now exists ps|].
  destruct (drawn_closest _ _ _ _ _ D Fc) as [_ H2]. destruct G as [(k & Hk & Hd)|F]; [exfalso; pose proof (H2 L k Hk); lra|].
  assert (D' : drawn g' (ps ++ [p])) by (unfold drawn; rewrite Hn, !map_app; now rewrite D).
  exists (ps ++ [p]). split; [exact D'|]. rewrite (drawn_length _ _ D) in Ei. rewrite He, Ei. apply total_split.
  - intros e Hin. destruct (V e Hin). tauto.
  - intros e Hin On. apply (proj2 F e Hin). destruct (V e Hin) as (_ & Hs & Hd).
    apply (drawn_on _ (ps ++ [p])) in On; try (rewrite app_length; cbn [length]; lia).
    + rewrite pt_new in On. now apply (edge_near_app ps [p] (edges g) e p V Hin).
    + exact D'.
Qed.

Lemma restricts_length : forall keep (g g' : graph) gone sv ps, drawn g ps -> restricts keep g g' gone sv ->
  exists ps', drawn g' ps' /\ total_length ps' (edges g') = total_length ps sv.
Proof.
  intros keep g g' gone sv ps D (Inc & K & Fn & Fe). exists (map (pt ps) keep). split.
  - unfold drawn. clear - Fn D. induction Fn as [|n i l l' Hn F IH]; [reflexivity|]. cbn [map]. rewrite IH. f_equal. now apply (drawn_nth g).
  - unfold total_length. clear - Fe. induction Fe as [|e' e l l' (S1 & S2 & _) F IH]; [reflexivity|]. cbn [map fold_right]. rewrite IH. f_equal.
    assert (Ptk : forall a i, nth_error keep a = Some i -> pt (map (pt ps) keep) a = pt ps i).
    { intros a i H. unfold pt at 1. apply nth_error_nth. now rewrite nth_error_map, H. }
    now rewrite (Ptk _ _ S1), (Ptk _ _ S2).
Qed.

Theorem remove_node_length : forall (g g' : graph) ps id r, drawn g ps -> well_drawn ps (edges g) -> remove_node g id = Ok (g', r) ->
  exists ps', drawn g' ps' /\
    total_length ps (edges g) = total_length ps' (edges g') + total_length ps (filter (fun e => Nat.eqb (src e) id || Nat.eqb (dst e) id) (edges g)).
Proof.
  intros g g' ps id r D W H. pose proof (well_drawn_valid g ps D W) as Hv.
  destruct (lt_dec id (length (nodes g))) as [Hi|Hi].
  - assert (NL : ~ lonely_loop g id) by (apply no_loops_not_lonely; eapply well_drawn_no_loops; eassumption).
    pose proof (remove_node_restricts g g' id r Hv Hi NL H) as R.
    destruct (restricts_length _ _ _ _ _ ps D R) as (ps' & D' & Q). exists ps'. split; [exact D'|]. rewrite Q.
    rewrite <- (total_perm ps _ _ (filter_perm _ (fun e => negb (touchesb id e)) (edges g))), total_app, Rplus_comm. f_equal.
    f_equal. apply filter_ext. intros e. rewrite negb_involutive. reflexivity.
  - rewrite remove_node_missing in H by lia. inversion H; subst. exists ps. split; [exact D|].
    replace (filter (fun e => Nat.eqb (src e) id || Nat.eqb (dst e) id) (edges g')) with (@nil (Edge U)); [cbn; lra|].
    symmetry. apply filter_none. intros e He. destruct (Hv e He). apply orb_false_iff. split; apply Nat.eqb_neq; lia.
Qed.

Theorem remove_edge_length : forall (g g' : graph) ps id e r, drawn g ps -> well_drawn ps (edges g) -> nth_error (edges g) id = Some e ->
  remove_edge g id = Ok (g', r) ->
  exists ps', drawn g' ps' /\ total_length ps' (edges g') = total_length ps (edges g) - dist (pt ps (src e)) (pt ps (dst e)).
Proof.
  intros g g' ps id e r D W E H. pose proof (well_drawn_valid g ps D W) as Hv.
  assert (NL : ~ lonely_loop g (src e)) by (apply no_loops_not_lonely; eapply well_drawn_no_loops; eassumption).
  destruct (remove_edge_restricts g g' id e r Hv E NL H) as (keep & sv & Pm & R).
  assert (Pm' : Permutation ([e] ++ sv) (edges g)).
  { eapply Permutation_trans; [|apply without_perm; exact E]. now apply Permutation_app_head. }
  destruct (restricts_length _ _ _ _ _ ps D R) as (ps' & D' & Q). exists ps'. split; [exact D'|].
  rewrite Q, <- (total_perm ps _ _ Pm'), total_app. unfold total_length at 2. cbn [map fold_right]. lra.
Qed.
End Lengths.

Lemma twice_nth : forall (W : Type) ps (l : list (nat * nat * W)) x, twice ps (map fst l) x <->
  exists i j s d u s' d' u', i <> j /\ nth_error l i = Some (s, d, u) /\ nth_error l j = Some (s', d', u') /\
    on_segment (pt ps s) (pt ps d) x /\ on_segment (pt ps s') (pt ps d') x.
Proof.
  intros W ps l x. induction l as [|[[s d] u] l IH].
  - split.
    + intros (a & b & l' & P & _). apply Permutation_nil in P. discriminate.
    + intros ([|i] & j & s & d & u & s' & d' & u' & _ & H & _); discriminate.
  - cbn [map fst]. rewrite twice_cons, IH. split.
    + intros [(Sc & a & Ha & Sa)|(i & j & s1 & d1 & u1 & s2 & d2 & u2 & N & Hi & Hj & S1 & S2)].
      * apply in_map_iff in Ha. destruct Ha as ([[s' d'] u'] & <- & Hin). apply In_nth_error in Hin. destruct Hin as (j & Hj).
        exists 0%nat, (S j), s, d, u, s', d', u'. repeat split; auto.
      * exists (S i), (S j), s1, d1, u1, s2, d2, u2. repeat split; auto.
    + intros ([|i] & [|j] & s1 & d1 & u1 & s2 & d2 & u2 & N & Hi & Hj & S1 & S2); cbn [nth_error] in Hi, Hj.
      * congruence.
      * injection Hi as -> -> ->. left. split; [exact S1|]. exists (s2, d2). split; [apply in_map_iff; exists (s2, d2, u2); split; [reflexivity|eapply nth_error_In; eassumption]|exact S2].
      * injection Hj as -> -> ->. left. split; [exact S2|]. exists (s1, d1). split; [apply in_map_iff; exists (s1, d1, u1); split; [reflexivity|eapply nth_error_In; eassumption]|exact S1].
      * right. exists i, j, s1, d1, u1, s2, d2, u2. repeat split; auto.
Qed.
