(** * add_node and add_edge in f32 on drawings with room to spare. *)
From Coq Require Import ZArith Reals Lia Lra List Bool Arith.
From Flocq Require Import Core.Core IEEE754.BinarySingleNaN.
From Verif Require Import Scalar Utils F32 Laws Graph ListSpec GraphSpec PlaneSpec PlanarSpec GridSpec Format RoundSpec GeoSpec GeoRound Closest
  GraphAdd GraphAddProps GeoOn UtilsReal GeoSeg GeoGraph GraphPlanar MarginSpec MarginReal MarginSeg.
Import ListNotations.
Local Open Scope R_scope.

Lemma map_nth_some : forall A B (f : A -> B) l k q, nth_error (map f l) k = Some q -> exists x, nth_error l k = Some x /\ f x = q.
Proof. intros A B f l k q H. rewrite nth_error_map in H. destruct (nth_error l k) as [x|]; [|discriminate]. injection H as H. exists x. auto. Qed.

Section MarginGraph.
Context (lm : Libm) {T U : Type} (dT : T).
Local Notation F := (FO lm).
Local Notation graph := (PlanarGraph F T U).
Local Notation edge := (Edge U).
Local Notation rp := real_point.
Variables (M K dl : R).
Hypothesis Fn : fine M K dl.
Local Notation h := (slip M K).

(** The stored nodes are within rounding of the exact points [X]. *)
Definition rel (g : graph) (X : list point) : Prop :=
  length X = length (nodes g) /\ boxed M X /\
  forall k n, nth_error (nodes g) k = Some n -> pfin (position n) /\ dist (rp (position n)) (pt X k) <= h.

Lemma margins : 0 <= h /\ 2 * h < eps32 * (1 - 4 * u32) /\ eps32 * (1 + 4 * u32) + 2 * h < dl /\ 2 * h < dl /\ 0 < dl.
Proof.
  destruct (fine_nums M K dl Fn) as (N1 & N2 & N3 & N4 & N5 & N6 & N7 & N8 & N9). rewrite eps_u.
  assert (0 <= u32 * M) by (apply Rmult_le_pos; lra). assert (u32 * u32 <= / 1000000 * u32) by (apply Rmult_le_compat_r; unfold u32; lra).
  repeat split; lra.
Qed.

Lemma rel_pos : forall g X k, rel g X -> (k < length X)%nat -> inbox (pos_at (nodes g) k) /\ dist (rp (pos_at (nodes g) k)) (pt X k) <= h.
Proof.
  intros g X k (L & B & C) Hk. unfold pos_at. destruct (nth_error (nodes g) k) as [n|] eqn:E; [|apply nth_error_None in E; lia].
  destruct (C k n E) as [Fp D]. split; [|exact D]. destruct (boxed_pt M X k B Hk). eapply close_inbox; eassumption.
Qed.

Lemma near_old : forall g X q k, rel g X -> pfin q -> (k < length X)%nat -> dist (rp q) (pt X k) <= h -> near_node g q.
Proof.
  intros g X q k (L & B & C) Fq Hk D. destruct (nth_error (nodes g) k) as [n|] eqn:E; [|apply nth_error_None in E; lia].
  destruct (C k n E) as [Fp D']. exists k, n. split; [exact E|]. apply not_false_is_true. intros Q.
  pose proof (proj2 (lt_eps_real lm q (position n) Fq Fp) Q) as G. cbv zeta in G. pose proof margins.
  pose proof (triangle (rp q) (pt X k) (rp (position n))). rewrite (dist_sym (pt X k) (rp (position n))) in *. lra.
Qed.
Lemma far_old : forall g X q x, rel g X -> pfin q -> dist (rp q) x <= h -> (forall k, (k < length X)%nat -> dl <= dist x (pt X k)) -> ~ near_node g q.
Proof.
  intros g X q x (L & B & C) Fq D Far (k & n & E & Q). destruct (C k n E) as [Fp D'].
  assert (Hk : (k < length X)%nat) by (rewrite L; apply nth_error_Some; congruence). specialize (Far k Hk).
  pose proof (proj1 (lt_eps_real lm q (position n) Fq Fp) Q) as G. cbv zeta in G. pose proof margins.
  pose proof (triangle x (rp q) (pt X k)). pose proof (triangle (rp q) (rp (position n)) (pt X k)). rewrite (dist_sym x (rp q)) in *. lra.
Qed.

(** Splitting at a stored node changes nothing. *)
Lemma old_noop : forall g X j, rel g X -> spaced dl X (edges g) -> (j < length X)%nat ->
  split_edges (on_edge (nodes g) j) j (edges g) = edges g.
Proof.
  intros g X j R S Hj. apply split_noop. intros e He. pose proof S as (V & A & C). destruct (V e He) as (Ne & L1 & L2). destruct R as (RL & RB & RC).
  assert (R : rel g X) by (split; [exact RL|split; assumption]).
  destruct (rel_pos g X _ R L1) as [I1 D1]. destruct (rel_pos g X _ R L2) as [I2 D2]. destruct (rel_pos g X _ R Hj) as [Ij Dj].
  unfold on_edge. destruct (Nat.eq_dec (src e) j) as [<-|N1]; [apply on_end; auto|]. destruct (Nat.eq_dec (dst e) j) as [<-|N2]; [apply on_end; auto|].
  eapply (on_reject lm M K dl Fn); try eassumption.
  - eapply edge_len; eassumption.
  - apply (C j e Hj He). intros [Q|Q]; congruence.
Qed.

Lemma fresh_on : forall g X (n : Node F T) q x (es : list edge) e, rel g X -> spaced dl X es -> lone dl X es x -> position n = q -> inbox q ->
  dist (rp q) x <= h -> In e es -> (on_edge (nodes g ++ [n]) (length (nodes g)) e = true <-> edge_on X e x).
Proof.
  intros g X n q x es e R S Lx <- Iq Dq He. pose proof S as (V & A & C). destruct (V e He) as (Ne & L1 & L2). pose proof R as (RL & RB & RC).
  assert (P : forall k, (k < length X)%nat -> pos_at (nodes g ++ [n]) k = pos_at (nodes g) k).
  { intros k Hk. unfold pos_at. rewrite nth_error_app1 by lia. reflexivity. }
  assert (P' : pos_at (nodes g ++ [n]) (length (nodes g)) = position n).
  { unfold pos_at. rewrite nth_error_app2, Nat.sub_diag by lia. reflexivity. }
  unfold on_edge. rewrite !P, P' by assumption.
  destruct (rel_pos g X _ R L1) as [I1 D1]. destruct (rel_pos g X _ R L2) as [I2 D2].
  pose proof (edge_len M dl X es e RB S He) as EL. destruct margins as (_ & _ & _ & _ & Pd).
  destruct (proj2 Lx e He) as [On|Off].
  - split; [intros _; exact On|]. intros _. eapply (on_accept lm M K dl Fn); try eassumption; now apply (proj1 Lx).
  - split.
    + intros Q. exfalso. rewrite (on_reject lm M K dl Fn _ _ _ (pt X (src e)) (pt X (dst e)) x) in Q; auto. discriminate.
    + intros On. exfalso. pose proof (Off x On) as G. rewrite dist_self0 in G. lra.
Qed.

(** A computed point, with the exact crossing it stands for (or none, for a point next to
    a stored node). *)
Definition item : Type := Vec2 f32 * option point.
Definition good (X : list point) (i : item) : Prop :=
  pfin (fst i) /\ match snd i with
  | None => exists k, (k < length X)%nat /\ dist (rp (fst i)) (pt X k) <= h
  | Some x => dist (rp (fst i)) x <= h /\ Rabs (vx x) <= M /\ Rabs (vy x) <= M
  end.
Definition pend (l : list item) : list point := flat_map (fun i => match snd i with Some x => [x] | None => [] end) l.
Definition kept (l : list item) : list (Vec2 f32) := flat_map (fun i => match snd i with Some _ => [fst i] | None => [] end) l.
Definition mk (q : Vec2 F) : Node F T := MkNode q dT DEFAULT_LABEL.

Lemma good_app : forall X Y i, good X i -> good (X ++ Y) i.
Proof.
  intros X Y [q [x|]] (Fq & G); split; auto. cbn [fst snd] in *. destruct G as (k & Hk & D). exists k. rewrite app_length. split; [lia|]. now rewrite pt_app.
Qed.

Lemma rel_app : forall g g' X q x (n : Node F T), rel g X -> nodes g' = nodes g ++ [n] -> position n = q -> pfin q -> dist (rp q) x <= h ->
  Rabs (vx x) <= M -> Rabs (vy x) <= M -> rel g' (X ++ [x]).
Proof.
  intros g g' X q x n (L & B & C) Hn <- Fq D Bx By. split; [rewrite Hn, !app_length, L; reflexivity|]. split.
  - intros p Hp. apply in_app_or in Hp. destruct Hp as [Hp|[<-|[]]]; auto.
  - intros k m Hk. rewrite Hn in Hk. destruct (Nat.lt_ge_cases k (length (nodes g))) as [Lk|Lk].
    + rewrite nth_error_app1 in Hk by exact Lk. rewrite pt_app by lia. now apply C.
    + rewrite nth_error_app2 in Hk by exact Lk. destruct (k - length (nodes g))%nat as [|m'] eqn:E; [|destruct m'; discriminate].
      replace k with (length X) by lia. rewrite pt_new. inversion Hk; subst m. auto.
Qed.

Lemma add_fresh_margin : forall g g' X q x pd d i ces, rel g X -> minv dl X (edges g) (x :: pd) -> pfin q -> dist (rp q) x <= h ->
  Rabs (vx x) <= M -> Rabs (vy x) <= M -> add_node g (q : Vec2 F) d = Ok (g', (i, ces)) ->
  rel g' (X ++ [x]) /\ minv dl (X ++ [x]) (edges g') pd /\ (forall y, covers (X ++ [x]) (edges g') y <-> covers X (edges g) y) /\
  nodes g' = nodes g ++ [MkNode q d DEFAULT_LABEL] /\ i = length (nodes g).
Proof.
  intros g g' X q x pd d i ces R I Fq Dq Bx By H. pose proof I as (S & _ & Lp & _). pose proof (Lp x (or_introl eq_refl)) as Lx.
  assert (NN : ~ near_node g q) by (eapply far_old; try eassumption; apply Lx).
  apply add_node_ok in H. destruct H as [(dd & Fc & Lt & _)|(dd & j & Fc & Lt & -> & Hn & He & _)].
  - exfalso. apply NN. now apply (closest_not_near (FO_laws lm) g q i dd Fc).
  - pose proof R as (RL & RB & RC).
    assert (On : forall e, In e (edges g) -> (on_edge (nodes g') (length X) e = true <-> edge_on X e x)).
    { intros e Hin. rewrite Hn, RL. eapply fresh_on; try eassumption; [reflexivity|]. eapply close_inbox; eassumption. }
    split; [eapply rel_app; try eassumption; reflexivity|]. rewrite <- RL in He. rewrite He. split; [|split; [|split; [exact Hn|reflexivity]]].
    + eapply mstep; eassumption.
    + eapply mstep_covers; eassumption.
Qed.

Lemma points_loop : forall (l : list item) g X cn ce g' r, rel g X -> minv dl X (edges g) (pend l) -> Forall (good X) l ->
  split_at_points dT g (map fst l : list (Vec2 F)) cn ce = Ok (g', r) ->
  rel g' (X ++ pend l) /\ minv dl (X ++ pend l) (edges g') [] /\ (forall y, covers (X ++ pend l) (edges g') y <-> covers X (edges g) y) /\
  nodes g' = nodes g ++ map mk (kept l).
Proof.
  induction l as [|[q o] l IH]; intros g X cn ce g' r R I G H; cbn [map split_at_points fst] in H.
  - inversion H; subst g'. cbn [pend kept flat_map map]. rewrite !app_nil_r. repeat (split; [assumption || reflexivity|]). reflexivity.
  - inversion G as [|? ? [Fq Gq] Gl]; subst. cbn [fst snd] in Fq, Gq.
    destruct (find_closest_to (q : Vec2 F) (gather_node_positions g)) as [j dd] eqn:Fc.
    destruct (closest_not_near (FO_laws lm) g q j dd Fc) as [Near _].
    destruct o as [x|].
    + destruct Gq as (Dx & Bx & By). cbn [pend flat_map snd app] in I. fold (pend l) in I.
      assert (NN : ~ near_node g q).
      { pose proof I as (_ & _ & Lp & _). eapply far_old; try eassumption. apply (Lp x (or_introl eq_refl)). }
      destruct (olt dd ceps) eqn:Lt; [exfalso; apply NN, Near; reflexivity|].
      apply bind_ok in H. destruct H as ([g1 [ni ces]] & H1 & H).
      destruct (add_fresh_margin g g1 X q x (pend l) dT ni ces R I Fq Dx Bx By H1) as (R1 & I1 & C1 & N1 & _).
      assert (Gl' : Forall (good (X ++ [x])) l) by (eapply Forall_impl; [|exact Gl]; intros; now apply good_app).
      destruct (IH g1 (X ++ [x]) _ _ g' r R1 I1 Gl' H) as (R2 & I2 & C2 & N2).
      cbn [pend kept flat_map snd fst app map]. fold (pend l) (kept l). rewrite <- app_assoc in R2, I2, C2. cbn [app] in R2, I2, C2.
      split; [exact R2|]. split; [exact I2|]. split; [intros y; rewrite C2; apply C1|]. rewrite N2, N1, <- app_assoc. reflexivity.
    + destruct Gq as (k & Hk & Dk). cbn [pend kept flat_map snd app]. fold (pend l) (kept l). cbn [pend flat_map snd app] in I. fold (pend l) in I.
      assert (Lt : olt dd ceps = true) by (apply Near; eapply near_old; eassumption). rewrite Lt in H.
      apply bind_ok in H. destruct H as ([g1 ces] & H1 & H). apply split_at_node_ok in H1. destruct H1 as (Hn & H1).
      assert (E1 : edges g1 = edges g).
      { destruct H1 as [(_ & -> & _)|(Lj & E & _)]; [reflexivity|]. rewrite E. apply (old_noop g X); [exact R|apply I|]. destruct R as [-> _]. exact Lj. }
      assert (R1 : rel g1 X) by (unfold rel; rewrite Hn; exact R).
      rewrite <- E1 in I. destruct (IH g1 X _ _ g' r R1 I Gl H) as (R2 & I2 & C2 & N2). rewrite E1 in C2. rewrite Hn in N2. auto.
Qed.

(** unique_points_among keeps the crossings. *)
Lemma close_real : forall a b : Vec2 f32, pfin a -> pfin b -> eps32 * (1 + 4 * u32) <= dist (rp a) (rp b) -> close_to (O := F) a b = false.
Proof.
  intros a b Fa Fb D. unfold close_to. apply not_true_is_false. intros Q. pose proof (proj1 (le_eps_real lm a b Fa Fb) Q) as G. cbv zeta in G. lra.
Qed.

Lemma map_fst_nth : forall (all : list item) k q, nth_error (map fst all) k = Some q -> exists it, nth_error all k = Some it /\ fst it = q.
Proof. intros all k q H. exact (map_nth_some _ _ fst all k q H). Qed.

Lemma unique_items : forall (all rest : list item) i,
  (forall k it x k' it', nth_error rest k = Some it -> snd it = Some x -> nth_error all k' = Some it' -> k' <> (i + k)%nat ->
     close_to (O := F) (fst it) (fst it') = false) ->
  exists l', unique_loop (O := F) (map fst all) (map fst rest) i = map fst l' /\ pend l' = pend rest /\ incl l' rest.
Proof.
  intros all rest. induction rest as [|[q o] rest IH]; intros i H.
  - exists []. split; [reflexivity|]. split; [reflexivity|easy].
  - destruct (IH (S i)) as (l' & E & P & In').
    { intros k it x k' it' H1 H2 H3 H4. apply (H (S k) it x k' it' H1 H2 H3). lia. }
    cbn [map unique_loop fst]. destruct (has_close_other (O := F) q i 0 (map fst all)) eqn:Hc; cbn [negb].
    + exists l'. split; [exact E|]. split; [|intros z Hz; right; now apply In'].
      destruct o as [x|]; [|exact P]. exfalso. apply has_close_other_spec in Hc. destruct Hc as (k' & q' & Hq & Nk & Cl).
      destruct (map_fst_nth _ _ _ Hq) as (it' & E' & <-).
      assert (N : close_to (O := F) q (fst it') = false) by (apply (H O (q, Some x) x k' it' eq_refl eq_refl E'); lia).
      exact (diff_true_false (eq_trans (eq_sym Cl) N)).
    + exists ((q, o) :: l'). split; [cbn [map fst]; now rewrite E|]. split.
      * unfold pend. cbn [flat_map snd]. fold (pend l') (pend rest). now rewrite P.
      * intros z [<-|Hz]; [now left|right; now apply In'].
Qed.
End MarginGraph.
