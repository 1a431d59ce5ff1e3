(** * Drawing an edge through existing nodes, in exact arithmetic. *)
From Coq Require Import Reals List Arith Bool Lia Lra Permutation.
From Verif Require Import Scalar Utils Graph GraphSpec ListSpec Laws Closest PlaneSpec UtilsReal
  PlanarSpec GraphAdd GraphAddProps GraphRemove GraphHistory GraphPlanar ThroughSpec.
Import ListNotations.
Local Open Scope R_scope.

Lemma same_or_not : forall p q : point, p = q \/ p <> q.
Proof.
  intros [px py] [qx qy]. destruct (Req_dec px qx) as [->|N1]; [|right; congruence].
  destruct (Req_dec py qy) as [->|N2]; [now left|right; congruence].
Qed.

Section Step.
Context {U : Type}.
Local Notation edge := (Edge U).

(** Outside [Z] the two edges meet only at a common end, at a pending point or at a node of
    [K].  (For segments that overlap no edge [Z] is empty.) *)
Variable Z : point -> Prop.
Definition meet_thru (P : list point) (K : nat -> Prop) (pend : list point) (e f : edge) : Prop :=
  forall x, ~ Z x -> edge_on P e x -> edge_on P f x ->
    (exists k, touches k e /\ touches k f /\ x = pt P k) \/ In x pend \/
    (exists k, (k < length P)%nat /\ K k /\ x = pt P k).

Lemma meet_thru_sym : forall P K pend e f, meet_thru P K pend e f -> meet_thru P K pend f e.
Proof.
  intros P K pend e f H x Nz H1 H2.
  destruct (H x Nz H2 H1) as [(k & A & B & C)|[Hp|Hk]]; [left; exists k|right; left|right; right]; auto.
Qed.

Definition clear_thru (P : list point) (K : nat -> Prop) (es : list edge) : Prop :=
  forall k e, (k < length P)%nat -> In e es -> edge_near P e (pt P k) -> K k /\ edge_on P e (pt P k).

Definition thru (P : list point) (es : list edge) (K : nat -> Prop) (pend : list point) : Prop :=
  ends_ok P es /\ apart P /\ clear_thru P K es /\ ForallOrdPairs (meet_thru P K pend) es /\
  (forall y, In y pend -> loc P es y) /\
  ForallOrdPairs (fun x y => eps32 < dist x y) pend.

(** A node on an edge is an end of it or in [K]. *)
Lemma node_on_edge_thru : forall P es K k e, ends_ok P es -> apart P -> clear_thru P K es ->
  (k < length P)%nat -> In e es -> edge_on P e (pt P k) -> touches k e \/ edge_near P e (pt P k).
Proof.
  intros P es K k e V A C Hk He On. destruct (V e He) as (N & Hs & Hd). unfold touches.
  destruct (Nat.eq_dec (src e) k) as [E1|N1]; [now left; left|].
  destruct (Nat.eq_dec (dst e) k) as [E2|N2]; [now left; right|].
  right. apply on_near; [exact On| |]; apply A; auto.
Qed.

(** One split at node [n], which is new ([q = [x]]) or old ([q = []]). *)
Section One.
Variables (P q : list point) (es : list edge) (K : nat -> Prop) (pend : list point) (x : point) (n : nat).
Variable on : edge -> bool.
Let P' := P ++ q.
Let K' := fun k => K k /\ k <> n.
Let es' := split_edges on n es.
Hypothesis I : thru P es K (x :: pend).
Hypothesis Hn : (n < length P')%nat.
Hypothesis En : pt P' n = x.
Hypothesis Old : forall k, (k < length P')%nat -> k <> n -> (k < length P)%nat.
Hypothesis A' : apart P'.
Hypothesis On : forall e, In e es -> (on e = true <-> edge_near P e x).
Hypothesis NO : forall e, In e es -> edge_near P e x -> edge_on P e x.

Let V : ends_ok P es := proj1 I.
Let A : apart P := proj1 (proj2 I).
Let C : clear_thru P K es := proj1 (proj2 (proj2 I)).

Lemma t_le : forall k, (k < length P)%nat -> (k < length P')%nat.
Proof. intros k H. unfold P'. rewrite app_length. lia. Qed.

Lemma t_pt : forall k, (k < length P)%nat -> pt P' k = pt P k.
Proof. intros k H. apply pt_app. exact H. Qed.

(** x is further than epsilon from every other node. *)
Lemma t_far : forall k, (k < length P)%nat -> k <> n -> eps32 < dist x (pt P k).
Proof. intros k H N. rewrite <- En, <- (t_pt k H). apply A'; [exact Hn|now apply t_le|congruence]. Qed.

(** An end of an edge split at x is not n. *)
Lemma t_end : forall e, In e es -> edge_near P e x -> src e <> n /\ dst e <> n.
Proof.
  intros e He (_ & H1 & H2). destruct (V e He) as (_ & Hs & Hd). pose proof eps32_pos. split; intros E.
  - assert (Q : pt P (src e) = x) by (rewrite <- (t_pt _ Hs), E; exact En). rewrite Q, dist_self0 in H1. lra.
  - assert (Q : pt P (dst e) = x) by (rewrite <- (t_pt _ Hd), E; exact En). rewrite Q, dist_self0 in H2. lra.
Qed.

Lemma t_piece : forall e e', In e es -> In e' (pieces on n e) ->
  (on e = false /\ e' = e) \/
  (on e = true /\ dst e' = n /\ exists a b, src e' = a /\ (a < length P)%nat /\ (b < length P)%nat /\ a <> b /\
     a <> n /\ b <> n /\
     touches a e /\ touches b e /\ (forall k, touches k e -> k = a \/ k = b) /\
     on_segment (pt P a) (pt P b) x /\ near (pt P a) (pt P b) x /\
     forall y, (edge_on P e y <-> on_segment (pt P a) (pt P b) y) /\
               (edge_near P e y <-> near (pt P a) (pt P b) y)).
Proof.
  intros e e' He H. destruct (V e He) as (N & Hs & Hd).
  destruct (piece_cases on n e e' H) as [H'|(T & D & H')]; [now left|]. right.
  split; [exact T|]. split; [exact D|].
  assert (Nx : edge_near P e x) by (now apply On).
  assert (Ox : edge_on P e x) by (now apply NO).
  destruct (t_end e He Nx) as [M1 M2].
  destruct H' as [S|S].
  - exists (src e), (dst e). unfold touches. repeat (split; [auto; fail|]).
    split; [intros k [<-|<-]; auto|]. split; [exact Ox|]. split; [exact Nx|]. intros y. split; reflexivity.
  - exists (dst e), (src e). unfold touches. repeat (split; [auto; fail|]).
    split; [intros k [<-|<-]; auto|]. split; [now apply on_sym|]. split; [now apply near_sym|].
    intros y. unfold edge_on, edge_near. split; split; first [apply on_sym|apply near_sym].
Qed.

Lemma t_half_on : forall e' : edge, dst e' = n -> (src e' < length P)%nat -> forall y,
  edge_on P' e' y <-> on_segment (pt P (src e')) x y.
Proof. intros e' D S y. unfold edge_on. rewrite D, En, t_pt by assumption. reflexivity. Qed.
Lemma t_half_near : forall e' : edge, dst e' = n -> (src e' < length P)%nat -> forall y,
  edge_near P' e' y <-> near (pt P (src e')) x y.
Proof. intros e' D S y. unfold edge_near. rewrite D, En, t_pt by assumption. reflexivity. Qed.

Lemma t_piece_on : forall e e' y, In e es -> In e' (pieces on n e) -> edge_on P' e' y -> edge_on P e y.
Proof.
  intros e e' y He H Hy.
  destruct (t_piece e e' He H) as [(_ & ->)|(_ & D & a & b & S & La & Lb & N & _ & _ & _ & _ & _ & Ox & _ & Q)].
  - now apply (edge_on_app P q es).
  - subst a. apply t_half_on in Hy; auto. apply Q. eapply on_half; eassumption.
Qed.

Lemma t_ends : ends_ok P' es'.
Proof.
  intros e' H. apply split_edges_in in H. destruct H as (e & He & H).
  destruct (V e He) as (N & Hs & Hd).
  destruct (t_piece e e' He H) as [(_ & ->)|(_ & D & a & b & S & La & _ & _ & Na & _)].
  - split; [exact N|]. split; now apply t_le.
  - rewrite D, S. split; [exact Na|]. split; [now apply t_le|exact Hn].
Qed.

Lemma t_piece_near : forall e e' y, In e es -> In e' (pieces on n e) ->
  (forall k, (k < length P)%nat -> touches k e -> eps32 < dist y (pt P k)) ->
  edge_near P' e' y -> edge_near P e y.
Proof.
  intros e e' y He H Far Hy.
  destruct (t_piece e e' He H) as [(_ & ->)|(_ & D & a & b & S & La & Lb & N & _ & _ & Ta & Tb & Tk & Ox & Nx & Q)].
  - now apply (edge_near_app P q es).
  - subst a. apply t_half_near in Hy; auto. apply Q. eapply near_half; try eassumption.
    now apply Far.
Qed.

Lemma t_clear : clear_thru P' K' es'.
Proof.
  intros k e' Hk H Hn'. apply split_edges_in in H. destruct H as (e & He & H).
  pose proof (t_piece e e' He H) as PI.
  destruct (Nat.eq_dec k n) as [->|Nk].
  - exfalso. rewrite En in Hn'.
    destruct PI as [(F & ->)|(_ & D & a & b & S & La & _)].
    + apply (edge_near_app P q es) in Hn'; auto. apply On in Hn'; auto. congruence.
    + subst a. apply t_half_near in Hn'; auto. destruct Hn' as (_ & _ & Hz). rewrite dist_self0 in Hz.
      pose proof eps32_pos. lra.
  - assert (Lk : (k < length P)%nat) by now apply Old. rewrite (t_pt k Lk) in Hn' |- *.
    destruct PI as [(F & ->)|(_ & D & a & b & S & La & Lb & N & Na & Nb & Ta & Tb & Tk & Ox & Nx & Q)].
    + apply (edge_near_app P q es) in Hn'; auto. destruct (C k e Lk He Hn') as [H1 H2].
      split; [split; assumption|]. now apply (edge_on_app P q es).
    + subst a. pose proof Hn' as Hn2. apply t_half_near in Hn'; auto.
      destruct (Nat.eq_dec k b) as [->|Nkb].
      * exfalso. destruct Hn' as (H1 & _ & H3). pose proof (on_segment_dist _ _ _ Ox).
        rewrite (dist_sym (pt P b) x) in H1. rewrite (dist_sym (pt P b) x) in H3.
        pose proof eps32_pos. lra.
      * assert (Nw : edge_near P e (pt P k)).
        { apply Q. eapply near_half; try eassumption. apply A; auto. }
        destruct (C k e Lk He Nw) as [H1 H2]. split; [split; assumption|].
        apply t_half_on; auto. apply (near_half_on _ (pt P b)); auto; [now apply Q|].
        rewrite dist_sym. now apply t_far.
Qed.

Lemma t_piece_touch : forall e e' k, In e es -> In e' (pieces on n e) -> (k < length P)%nat -> touches k e ->
  edge_on P' e' (pt P k) -> touches k e'.
Proof.
  intros e e' k He H Lk Tk' Hy.
  destruct (t_piece e e' He H) as [(_ & ->)|(_ & D & a & b & S & La & Lb & N & _ & _ & Ta & _ & Tk & Ox & Nx & Q)].
  - exact Tk'.
  - subst a. destruct (Tk k Tk') as [->| ->]; [now left|]. exfalso.
    apply t_half_on in Hy; auto. pose proof (on_segment_dist _ _ _ Hy). pose proof (on_segment_dist _ _ _ Ox).
    destruct Nx as (_ & _ & Nb). rewrite (dist_sym (pt P b) x) in H0.
    pose proof eps32_pos. lra.
Qed.

Lemma t_piece_x : forall e e', In e es -> In e' (pieces on n e) -> edge_on P' e' x -> touches n e'.
Proof.
  intros e e' He H Hy.
  destruct (t_piece e e' He H) as [(F & ->)|(_ & D & _)]; [|now right].
  apply (edge_on_app P q es) in Hy; auto. destruct (V e He) as (N & Hs & Hd). unfold touches.
  destruct (Nat.eq_dec (src e) n) as [|N1]; [now left|].
  destruct (Nat.eq_dec (dst e) n) as [|N2]; [now right|]. exfalso.
  assert (edge_near P e x); [|apply On in H0; auto; congruence].
  apply on_near; [exact Hy| |]; [rewrite dist_sym|]; now apply t_far.
Qed.

Lemma t_meet : ForallOrdPairs (meet_thru P' K' pend) es'.
Proof.
  apply (pairs_perm _ (meet_thru_sym P' K' pend) _ _ (split_edges_perm _ on n es)).
  apply (pairs_flat_map _ _ (meet_thru P K (x :: pend))).
  - exact (proj1 (proj2 (proj2 (proj2 I)))).
  - intros e He. unfold pieces. destruct (on e) eqn:T.
    + constructor; [|constructor; [constructor|constructor]].
      constructor; [|constructor]. intros y _ H1 H2. left. exists n.
      split; [now right|]. split; [now right|]. rewrite En.
      destruct (V e He) as (N & Hs & Hd).
      apply t_half_on in H1; auto. apply t_half_on in H2; auto. cbn [half1 half2 src] in *.
      assert (Ox : edge_on P e x) by (apply (NO e He); apply On; auto).
      unfold edge_on in Ox. pose proof (on_segment_dist _ _ _ H1). pose proof (on_segment_dist _ _ _ H2).
      pose proof (on_segment_dist _ _ _ Ox). pose proof (triangle (pt P (src e)) y (pt P (dst e))).
      rewrite (dist_sym (pt P (dst e)) y), (dist_sym (pt P (dst e)) x) in H0.
      apply dist_zero. pose proof (dist_nonneg y x). lra.
    + constructor; constructor.
  - intros e f e' f' He Hf M He' Hf' y Nz H1 H2.
    assert (Mx : y = x -> exists k, touches k e' /\ touches k f' /\ y = pt P' k).
    { intros ->. exists n. split; [now apply (t_piece_x e e')|]. split; [now apply (t_piece_x f f')|now symmetry]. }
    destruct (M y Nz) as [(k & Te & Tf & Ey)|[[<-|H]|(k & Lk & Kk & Ey)]].
    + now apply (t_piece_on e e').
    + now apply (t_piece_on f f').
    + left. subst y. exists k. assert (Lk : (k < length P)%nat).
      { destruct (V e He) as (_ & Hs & Hd). destruct Te as [<-|<-]; assumption. }
      split; [now apply (t_piece_touch e e' k)|]. split; [now apply (t_piece_touch f f' k)|].
      now rewrite t_pt.
    + left. now apply Mx.
    + right. now left.
    + destruct (Nat.eq_dec k n) as [->|Nk].
      * left. apply Mx. rewrite Ey, <- (t_pt _ Lk). exact En.
      * right. right. exists k. split; [now apply t_le|]. split; [split; assumption|]. now rewrite t_pt.
Qed.

Lemma t_loc : forall y, In y pend -> loc P' es' y.
Proof.
  intros y Hy. assert (Dx : eps32 < dist y x).
  { pose proof (proj2 (proj2 (proj2 (proj2 (proj2 I))))) as Pw. inv Pw.
    rewrite Forall_forall in H1. rewrite dist_sym. now apply H1. }
  destruct (proj1 (proj2 (proj2 (proj2 (proj2 I)))) y) as [(k & Lk & ->)|(F1 & F2)];
    [now right| |].
  - left. exists k. split; [now apply t_le|now rewrite t_pt].
  - right. split.
    + intros k Hk. destruct (Nat.eq_dec k n) as [->|N].
      * now rewrite En.
      * assert (Lk : (k < length P)%nat) by now apply Old. rewrite (t_pt k Lk). now apply F1.
    + intros e' H Hn'. apply split_edges_in in H. destruct H as (e & He & H).
      assert (Hon : edge_on P e y).
      { apply F2; [exact He|]. eapply t_piece_near; try eassumption. intros k Lk _. now apply F1. }
      destruct (t_piece e e' He H) as [(_ & ->)|(_ & D & a & b & S & La & Lb & N & _ & _ & Ta & _ & Tk & Ox & Nx & Q)].
      * now apply (edge_on_app P q es).
      * subst a. apply t_half_near in Hn'; auto. apply t_half_on; auto.
        apply (near_half_on _ (pt P b)); auto. now apply Q.
Qed.

Lemma t_step : thru P' es' K' pend.
Proof.
  split; [exact t_ends|]. split; [exact A'|]. split; [exact t_clear|].
  split; [exact t_meet|]. split; [exact t_loc|].
  pose proof (proj2 (proj2 (proj2 (proj2 (proj2 I))))) as Pw. now inv Pw.
Qed.

Lemma t_covers : forall y, covers P' es' y <-> covers P es y.
Proof.
  intros y. split; intros (e & He & Hy).
  - apply split_edges_in in He. destruct He as (e0 & He0 & H). exists e0. split; [exact He0|].
    eapply t_piece_on; eassumption.
  - destruct (on e) eqn:T.
    + assert (Ox : edge_on P e x) by (apply (NO e He); apply On; auto).
      destruct (V e He) as (N & Hs & Hd).
      destruct (two_on _ _ _ _ Ox Hy) as [H|H]; [exists (half1 n e)|exists (half2 n e)];
        (split; [apply split_edges_in; exists e; split; [exact He|]; unfold pieces; rewrite T; simpl; auto|]);
        apply t_half_on; auto.
    + exists e. split; [apply split_edges_in; exists e; split; [exact He|]; unfold pieces; rewrite T; now left|].
      now apply (edge_on_app P q es).
Qed.

(** A point on two edges stays on two edges. *)
Lemma t_twice : forall y, twice P es y -> twice P' es' y.
Proof.
  intros y (e & f & l & Pm & He & Hf).
  assert (Q : forall e, In e es -> edge_on P e y -> exists e' l', Permutation (pieces on n e) (e' :: l') /\ edge_on P' e' y).
  { intros e0 H0 Hy. destruct (V e0 H0) as (N & Hs & Hd). unfold pieces. destruct (on e0) eqn:T.
    - assert (Ox : edge_on P e0 x) by (apply (NO e0 H0); apply On; auto).
      destruct (two_on _ _ _ _ Ox Hy) as [H|H].
      + exists (half1 n e0), [half2 n e0]. split; [reflexivity|]. apply t_half_on; auto.
      + exists (half2 n e0), [half1 n e0]. split; [apply perm_swap|]. apply t_half_on; auto.
    - exists e0, []. split; [reflexivity|]. now apply (edge_on_app P q es). }
  destruct (Q e) as (e' & l1 & P1 & O1); [apply (Permutation_in _ (Permutation_sym Pm)); now left|exact He|].
  destruct (Q f) as (f' & l2 & P2 & O2); [apply (Permutation_in _ (Permutation_sym Pm)); right; now left|exact Hf|].
  exists e', f', (l1 ++ l2 ++ flat_map (pieces on n) l). split; [|split; assumption].
  apply Permutation_sym. eapply perm_trans; [|exact (split_edges_perm _ on n es)]. apply Permutation_sym.
  rewrite (Permutation_flat_map (pieces on n) Pm). cbn [flat_map]. rewrite P1, P2. cbn [app]. apply perm_skip. apply Permutation_sym, Permutation_middle.
Qed.

(** The directions of the edges through a point stay. *)
Lemma t_heads : forall y a b, heads P es y a b -> heads P' es' y a b.
Proof.
  intros y a b (e & He & Hy & Z0). destruct (V e He) as (N & Hs & Hd). destruct (on e) eqn:T.
  - assert (Ox : edge_on P e x) by (apply (NO e He); apply On; auto).
    pose proof Ox as (t & Ht & Ex).
    destruct (two_on _ _ _ _ Ox Hy) as [H|H]; [exists (half1 n e)|exists (half2 n e)];
      (split; [apply split_edges_in; exists e; split; [exact He|]; unfold pieces; rewrite T; simpl; auto|]);
      (split; [apply t_half_on; auto|]); cbn [half1 half2 src dst]; rewrite t_pt by assumption; rewrite En, Ex; unfold cross, along in *; cbn [vx vy].
    + match goal with |- ?L = 0 => replace L with (t * ((vx (pt P (dst e)) - vx (pt P (src e))) * (vy b - vy a) - (vy (pt P (dst e)) - vy (pt P (src e))) * (vx b - vx a))) by ring end.
      rewrite Z0. ring.
    + match goal with |- ?L = 0 => replace L with ((t - 1) * ((vx (pt P (dst e)) - vx (pt P (src e))) * (vy b - vy a) - (vy (pt P (dst e)) - vy (pt P (src e))) * (vx b - vx a))) by ring end.
      rewrite Z0. ring.
  - exists e. split; [apply split_edges_in; exists e; split; [exact He|]; unfold pieces; rewrite T; now left|].
    split; [now apply (edge_on_app P q es)|]. now rewrite !t_pt.
Qed.

(** A node other than [n] that an edge runs through is still run through. *)
Lemma t_still : forall k e, In e es -> (k < length P)%nat -> k <> n -> edge_near P e (pt P k) ->
  exists e', In e' es' /\ crosses_node P' k e'.
Proof.
  intros k e He Lk Nk Hk. destruct (C k e Lk He Hk) as [_ Ok].
  assert (Nt : ~ touches k e).
  { intros T. destruct Hk as (_ & H1 & H2). pose proof eps32_pos.
    destruct T as [<-|<-]; rewrite dist_self0 in *; lra. }
  destruct (V e He) as (N & Hs & Hd).
  destruct (on e) eqn:T.
  - assert (Nx : edge_near P e x) by (now apply On). assert (Ox : edge_on P e x) by (now apply NO).
    destruct (two_on _ _ _ _ Ox Ok) as [H|H]; [exists (half1 n e)|exists (half2 n e)];
      (split; [apply split_edges_in; exists e; split; [exact He|]; unfold pieces; rewrite T; simpl; auto|]).
    + split; [|apply t_half_on; auto; now rewrite t_pt].
      unfold touches in *. simpl. intros [E|E]; [apply Nt; now left|congruence].
    + split; [|apply t_half_on; auto; now rewrite t_pt].
      unfold touches in *. simpl. intros [E|E]; [apply Nt; now right|congruence].
  - exists e. split; [apply split_edges_in; exists e; split; [exact He|]; unfold pieces; rewrite T; now left|].
    split; [exact Nt|]. rewrite t_pt by exact Lk. now apply (edge_on_app P q es).
Qed.
End One.
End Step.

Lemma thru_weaken : forall U Z P (es : list (Edge U)) (K K2 : nat -> Prop) pend,
  (forall k, (k < length P)%nat -> K k -> K2 k) -> thru Z P es K pend -> thru Z P es K2 pend.
Proof.
  intros U Z P es K K2 pend W (V & A & C & M & L & F). split; [exact V|]. split; [exact A|].
  split; [|split; [|split; [exact L|exact F]]].
  - intros k e Hk He Hn. destruct (C k e Hk He Hn). split; auto.
  - apply (pairs_nth _ (meet_thru_sym Z P K2 pend)). intros i j e f N Hi Hj x Nz H1 H2.
    destruct (proj1 (pairs_nth _ (meet_thru_sym Z P K pend) es) M i j e f N Hi Hj x Nz H1 H2)
      as [H|[H|(k & Lk & Kk & E)]]; [now left|right; now left|].
    right. right. exists k. auto.
Qed.

Lemma fresh_apart : forall U P (es : list (Edge U)) x, apart P -> fresh P es x -> apart (P ++ [x]).
Proof.
  intros U P es x A [F _] i j Hi Hj N. rewrite app_length in Hi, Hj. cbn [length] in Hi, Hj.
  destruct (Nat.eq_dec i (length P)) as [->|Ni], (Nat.eq_dec j (length P)) as [->|Nj].
  - contradiction.
  - rewrite pt_new, pt_app by lia. apply F. lia.
  - rewrite pt_new, pt_app by lia. rewrite dist_sym. apply F. lia.
  - rewrite !pt_app by lia. apply A; lia.
Qed.

Section Loop.
Context {T U : Type}.
Variable dT : T.
Local Notation graph := (PlanarGraph XO T U).

(** The loop over the pending points. *)
Lemma split_points_thru : forall Z pend (g g' : graph) ps K cn ce r, drawn g ps ->
  thru Z ps (edges g) K pend ->
  split_at_points dT g (map xp pend) cn ce = Ok (g', r) ->
  exists qs, drawn g' (ps ++ qs) /\
    thru Z (ps ++ qs) (edges g') (fun k => K k /\ ((k < length ps)%nat -> ~ In (pt ps k) pend)) [] /\
    (forall x, covers (ps ++ qs) (edges g') x <-> covers ps (edges g) x) /\
    (forall x, In x qs <-> In x pend /\ forall k, (k < length ps)%nat -> x <> pt ps k) /\
    (forall k e, (k < length ps)%nat -> In e (edges g) -> edge_near ps e (pt ps k) ->
       ~ In (pt ps k) pend -> exists e', In e' (edges g') /\ crosses_node (ps ++ qs) k e') /\
    (forall x, twice ps (edges g) x -> twice (ps ++ qs) (edges g') x) /\
    (forall x a b, heads ps (edges g) x a b -> heads (ps ++ qs) (edges g') x a b).
Proof.
  intros Z. induction pend as [|p pend IH]; intros g g' ps K cn ce r D I H; cbn [map split_at_points] in H.
  - inv H. exists []. rewrite app_nil_r. split; [exact D|]. split; [|split; [reflexivity|split; [|split; [|split; auto]]]].
    + eapply thru_weaken; [|exact I]. intros k _ Kk. split; [exact Kk|]. now intros _ [].
    + intros x. split; [intros []|intros [[] _]].
    + intros k e Lk He Hn _. exists e. split; [exact He|].
      split; [|exact (proj2 (proj1 (proj2 (proj2 I)) k e Lk He Hn))].
      intros Tk. destruct Hn as (_ & H1 & H2). pose proof eps32_pos.
      destruct Tk as [<-|<-]; rewrite dist_self0 in *; lra.
  - destruct (find_closest_to (xp p) (gather_node_positions g)) as [j dd] eqn:Fc.
    destruct (drawn_closest _ _ _ _ _ D Fc) as [Hc Hf].
    pose proof I as (V & A & C & M & Lc & Pw).
    pose proof (Lc p (or_introl eq_refl)) as Lp.
    assert (Dp : forall y, In y pend -> eps32 < dist p y).
    { inv Pw. rewrite Forall_forall in H2. exact H2. }
    destruct (olt dd ceps) eqn:L.
    + destruct (Hc eq_refl) as [Hj Hd].
      destruct Lp as [(k & Hk & Ek)|F]; [|pose proof (proj1 F j Hj); lra].
      assert (k = j).
      { destruct (Nat.eq_dec k j) as [|N]; [assumption|]. exfalso.
        pose proof (A k j Hk Hj N) as B. rewrite <- Ek in B. lra. }
      subst k. apply bind_ok in H. destruct H as ([g1 ces] & H1 & H).
      apply split_at_node_ok in H1. destruct H1 as (Hn & H1).
      assert (E1 : edges g1 = split_edges (on_edge (nodes g) j) j (edges g)).
      { destruct H1 as [(B & _)|(_ & E & _)]; [|exact E]. apply nth_error_None in B.
        rewrite (drawn_length _ _ D) in B. lia. }
      assert (D1 : drawn g1 ps) by (unfold drawn; now rewrite Hn).
      assert (On : forall e, In e (edges g) -> (on_edge (nodes g) j e = true <-> edge_near ps e p)).
      { intros e Hin. destruct (V e Hin) as (_ & Hs' & Hd'). rewrite Ek. now apply drawn_on. }
      assert (NO : forall e, In e (edges g) -> edge_near ps e p -> edge_on ps e p).
      { intros e Hin Hne. rewrite Ek in *. exact (proj2 (C j e Hj Hin Hne)). }
      assert (Hn' : (j < length (ps ++ []))%nat) by (rewrite app_nil_r; exact Hj).
      assert (En : pt (ps ++ []) j = p) by (rewrite app_nil_r; now symmetry).
      assert (Old : forall k, (k < length (ps ++ []))%nat -> k <> j -> (k < length ps)%nat)
        by (intros k; rewrite app_nil_r; auto).
      assert (A' : apart (ps ++ [])) by (rewrite app_nil_r; exact A).
      pose proof (t_step Z ps [] (edges g) K pend p j _ I Hn' En Old A' On NO) as I1.
      pose proof (t_covers Z ps [] (edges g) K pend p j _ I En On NO) as C1.
      pose proof (t_still Z ps [] (edges g) K pend p j _ I En On NO) as S1.
      pose proof (t_twice Z ps [] (edges g) K pend p j _ I En On NO) as T1.
      pose proof (t_heads Z ps [] (edges g) K pend p j _ I En On NO) as H1'.
      rewrite app_nil_r in *. rewrite <- E1 in *.
      destruct (IH g1 g' ps _ _ _ _ D1 I1 H) as (qs & Q1 & Q2 & Q3 & Q4 & Q5 & Q6 & Q7).
      exists qs. split; [exact Q1|]. split; [|split; [|split; [|split; [|split]]]]; [| | | |intros x Hx; exact (Q6 x (T1 x Hx))|intros x a b Hx; exact (Q7 x a b (H1' x a b Hx))].
      * eapply thru_weaken; [|exact Q2]. intros k Lk [[Kk Nk] Np]. split; [exact Kk|].
        intros Lk' [E|Hin]; [|exact (Np Lk' Hin)].
        apply Nk. destruct (Nat.eq_dec k j) as [|N]; [assumption|]. exfalso.
        pose proof (A k j Lk' Hj N) as B. rewrite <- E, <- Ek, dist_self0 in B. pose proof eps32_pos. lra.
      * intros x. now rewrite Q3, C1.
      * intros x. rewrite Q4. split.
        -- intros [H2 H3]. split; [now right|exact H3].
        -- intros [[<-|H2] H3]; [|now split]. exfalso. exact (H3 j Hj Ek).
      * intros k e Lk He Hne Np. assert (Nk : k <> j) by (intros ->; apply Np; left; exact Ek).
        destruct (S1 k e He Lk Nk Hne) as (e' & He' & Ne' & Oe').
        destruct I1 as (V1 & A1 & C1' & _).
        destruct (node_on_edge_thru _ _ _ k e' V1 A1 C1' Lk He' Oe') as [B|B]; [contradiction|].
        apply (Q5 k e' Lk He' B). intros Hin. apply Np. now right.
    + apply bind_ok in H. destruct H as ([g1 [ni ces]] & H1 & H).
      assert (F : fresh ps (edges g) p).
      { destruct Lp as [(k & Hk & Ek)|F]; [|exact F]. exfalso. specialize (Hf eq_refl k Hk).
        rewrite <- Ek, dist_self0 in Hf. pose proof eps32_pos. lra. }
      apply add_node_ok in H1.
      destruct H1 as [(dd' & Fc' & L' & _)|(dd' & j' & Fc' & L' & -> & Hn & He & _)].
      { exfalso. destruct (drawn_closest _ _ _ _ _ D Fc') as [B _]. destruct (B L') as [Hj Hd].
        pose proof (proj1 F ni Hj). lra. }
      assert (D1 : drawn g1 (ps ++ [p])).
      { unfold drawn. rewrite Hn, !map_app. now rewrite D. }
      assert (On : forall e, In e (edges g) ->
        (on_edge (nodes g1) (length (nodes g)) e = true <-> edge_near ps e p)).
      { intros e Hin. destruct (V e Hin) as (_ & Hs & Hd).
        rewrite (drawn_on _ (ps ++ [p])); try (rewrite app_length; simpl; lia).
        - rewrite (drawn_length _ _ D), pt_new. unfold edge_near. now rewrite !pt_app.
        - exact D1.
        - rewrite (drawn_length _ _ D), app_length. simpl. lia. }
      rewrite (drawn_length _ _ D) in *.
      assert (Hn' : (length ps < length (ps ++ [p]))%nat) by (rewrite app_length; simpl; lia).
      assert (En : pt (ps ++ [p]) (length ps) = p) by apply pt_new.
      assert (Old : forall k, (k < length (ps ++ [p]))%nat -> k <> length ps -> (k < length ps)%nat)
        by (intros k; rewrite app_length; simpl; lia).
      assert (A' : apart (ps ++ [p])) by (eapply fresh_apart; eassumption).
      pose proof (t_step Z ps [p] (edges g) K pend p _ _ I Hn' En Old A' On (proj2 F)) as I1.
      pose proof (t_covers Z ps [p] (edges g) K pend p _ _ I En On (proj2 F)) as C1.
      pose proof (t_still Z ps [p] (edges g) K pend p _ _ I En On (proj2 F)) as S1.
      pose proof (t_twice Z ps [p] (edges g) K pend p _ _ I En On (proj2 F)) as T1.
      pose proof (t_heads Z ps [p] (edges g) K pend p _ _ I En On (proj2 F)) as H1'.
      rewrite <- He in *.
      destruct (IH g1 g' (ps ++ [p]) _ _ _ _ D1 I1 H) as (qs & Q1 & Q2 & Q3 & Q4 & Q5 & Q6 & Q7).
      exists (p :: qs). replace (ps ++ p :: qs) with ((ps ++ [p]) ++ qs) by (now rewrite <- app_assoc).
      assert (Pk : forall k, (k < length ps)%nat -> p <> pt ps k).
      { intros k Lk E. pose proof (proj1 F k Lk) as B. rewrite <- E, dist_self0 in B. pose proof eps32_pos. lra. }
      split; [exact Q1|]. split; [|split; [|split; [|split; [|split]]]]; [| | | |intros x Hx; exact (Q6 x (T1 x Hx))|intros x a b Hx; exact (Q7 x a b (H1' x a b Hx))].
      * eapply thru_weaken; [|exact Q2]. intros k Lk [[Kk Nk] Np]. split; [exact Kk|].
        intros Lk' [E|Hin]; [exact (Pk k Lk' E)|].
        rewrite pt_app in Np by exact Lk'. apply Np; [rewrite app_length; lia|exact Hin].
      * intros x. now rewrite Q3, C1.
      * intros x. cbn [In]. rewrite Q4. split.
        -- intros [<-|[H2 H3]]; [split; [now left|exact Pk]|]. split; [now right|].
           intros k Lk. specialize (H3 k). rewrite pt_app in H3 by exact Lk. apply H3. rewrite app_length; lia.
        -- intros [[<-|H2] H3]; [now left|]. right. split; [exact H2|].
           intros k Lk. destruct (Nat.eq_dec k (length ps)) as [->|Nk].
           ++ rewrite pt_new. intros ->. specialize (Dp p H2). rewrite dist_self0 in Dp. pose proof eps32_pos. lra.
           ++ assert (Lk' : (k < length ps)%nat) by (now apply Old). rewrite pt_app by exact Lk'. now apply H3.
      * intros k e Lk He' Hne Np. assert (Nk : k <> length ps) by lia.
        destruct (S1 k e He' Lk Nk Hne) as (e' & He1 & Ne' & Oe').
        destruct I1 as (V1 & A1 & C1' & _).
        assert (Lk1 : (k < length (ps ++ [p]))%nat) by lia.
        destruct (node_on_edge_thru _ _ _ k e' V1 A1 C1' Lk1 He1 Oe') as [B|B]; [contradiction|].
        apply (Q5 k e' Lk1 He1 B). rewrite pt_app by exact Lk. intros Hin. apply Np. now right.
Qed.
End Loop.

(** ** Which passed nodes become ends *)

(** Parallel segments that meet at an end of one strictly inside the other overlap. *)
Lemma overlap_more : forall a b s d, cross a b s d = 0 -> a <> b -> on_segment s d a -> a <> s -> a <> d ->
  exists y, y <> a /\ on_segment a b y /\ on_segment s d y.
Proof.
  intros a b s d Z Nab (t & Ht & Ea) Ns Nd.
  assert (N : s <> d).
  { intros ->. apply Nd. rewrite Ea. destruct d. unfold along; simpl. f_equal; ring. }
  assert (T0 : t <> 0) by (intros ->; apply Ns; now rewrite Ea, along_0).
  assert (T1 : t <> 1) by (intros ->; apply Nd; now rewrite Ea, along_1).
  assert (Ec : exists c, vx b - vx a = c * (vx d - vx s) /\ vy b - vy a = c * (vy d - vy s)).
  { unfold cross in Z. destruct (Req_dec (vx d) (vx s)) as [E|E].
    - assert (E' : vy d <> vy s).
      { intros E'. apply N. destruct s, d; simpl in *. congruence. }
      exists ((vy b - vy a) / (vy d - vy s)). split; [|field; lra].
      rewrite E in Z. apply (Rmult_eq_reg_r (vy d - vy s)); [|lra]. rewrite E.
      replace (vx s - vx s) with 0 in * by ring. lra.
    - exists ((vx b - vx a) / (vx d - vx s)). split; [field; lra|].
      apply (Rmult_eq_reg_r (vx d - vx s)); [|lra].
      replace ((vx b - vx a) / (vx d - vx s) * (vy d - vy s) * (vx d - vx s))
        with ((vx b - vx a) * (vy d - vy s)) by (field; lra). lra. }
  destruct Ec as (c & C1 & C2).
  assert (Nc : c <> 0).
  { intros ->. apply Nab. destruct a, b; simpl in *. f_equal; lra. }
  assert (Et : exists u, 0 < u <= 1 /\ 0 <= t + u * c <= 1).
  { set (m := Rmin t (1 - t)). assert (Hm : 0 < m <= t /\ m <= 1 - t).
    { unfold m. pose proof (Rmin_l t (1 - t)). pose proof (Rmin_r t (1 - t)).
      pose proof (Rmin_glb_lt t (1 - t) 0). lra. }
    pose proof (Rabs_pos_lt c Nc) as Pc.
    exists (m / (1 + Rabs c)). assert (H1 : 0 < m / (1 + Rabs c)) by (apply Rdiv_lt_0_compat; lra).
    assert (H2 : m / (1 + Rabs c) * (1 + Rabs c) = m) by (field; lra).
    set (u := m / (1 + Rabs c)) in *. split; [nra|].
    assert (Q : Rabs (u * c) <= m) by (rewrite Rabs_mult, (Rabs_pos_eq u) by lra; nra).
    pose proof (Rle_abs (u * c)). pose proof (Rle_abs (- (u * c))) as Q2. rewrite Rabs_Ropp in Q2. lra. }
  destruct Et as (u & Hu & Hr). exists (along a b u). split; [|split].
  - intros E. apply Nab. destruct a as [ax ay], b as [bx by_]. unfold along in E. simpl in *. inversion E.
    f_equal; nra.
  - exists u. split; [lra|reflexivity].
  - exists (t + u * c). split; [lra|].
    assert (Ex : vx a = vx s + t * (vx d - vx s)) by (rewrite Ea at 1; reflexivity).
    assert (Ey : vy a = vy s + t * (vy d - vy s)) by (rewrite Ea at 1; reflexivity).
    unfold along. rewrite C1, C2. f_equal; [rewrite Ex|rewrite Ey]; ring.
Qed.

Lemma unique_isolated : forall ys pend y, unique_points_among (O := XO) (map xp ys) = map xp pend ->
  In y pend -> exists a, nth_error ys a = Some y /\
    forall b z, b <> a -> nth_error ys b = Some z -> eps32 < dist y z.
Proof.
  intros ys pend y E Hy. destruct (unique_points_spec (map xp ys)) as (keep & Inc & K & M).
  rewrite E in M. apply In_nth_error in Hy. destruct Hy as [c Hc].
  assert (H : nth_error (map Some (map xp pend)) c = nth_error (map (nth_error (map xp ys)) keep) c) by now rewrite M.
  rewrite !nth_error_map, Hc in H. cbn [option_map] in H.
  destruct (nth_error keep c) as [a|] eqn:Ea; cbn [option_map] in H; [|discriminate].
  injection H as H. rewrite nth_error_map in H.
  destruct (nth_error ys a) as [y'|] eqn:Ey; cbn [option_map] in H; [|discriminate].
  injection H as H. assert (y = y') by (apply xp_inj; unfold xp; congruence). subst y'.
  exists a. split; [exact Ey|]. intros b z Nb Hz.
  assert (Ia : In a keep) by (eapply nth_error_In; eassumption). apply K in Ia. destruct Ia as [_ Is].
  apply xclose. apply (Is _ b _).
  - now rewrite nth_error_map, Ey.
  - now rewrite nth_error_map, Hz.
  - exact Nb.
Qed.

Lemma degree_none : forall U (es : list (Edge U)) i, degree_in es i = 0%nat <-> forall e, In e es -> ~ touches i e.
Proof.
  intros U es i. pose proof (degree_pos es i) as H. split.
  - intros Z e He T. assert (0 < degree_in es i)%nat by (apply H; eauto). lia.
  - intros N. destruct (degree_in es i) eqn:E; [reflexivity|]. exfalso.
    destruct (proj1 H) as (e & He & T); [lia|]. exact (N e He T).
Qed.

Lemma degree_one : forall U (es : list (Edge U)) k, degree_in es k = 1%nat <->
  exists i e, nth_error es i = Some e /\ touches k e /\
    forall j f, j <> i -> nth_error es j = Some f -> ~ touches k f.
Proof.
  intros U es k. induction es as [|e es IH]; cbn [degree_in].
  - split; [discriminate|]. intros (i & e & H & _). destruct i; discriminate.
  - destruct (touchesb k e) eqn:E.
    + apply touchesb_iff in E. split.
      * intros H. assert (Z : degree_in es k = 0%nat) by lia. rewrite degree_none in Z.
        exists 0%nat, e. split; [reflexivity|]. split; [exact E|]. intros [|j] f N Hf; [congruence|].
        apply Z. eapply nth_error_In; exact Hf.
      * intros (i & e' & Hi & Te & U'). destruct i as [|i].
        -- assert (Z : degree_in es k = 0%nat); [|lia]. apply degree_none. intros f Hf.
           apply In_nth_error in Hf. destruct Hf as [j Hj]. apply (U' (S j)); [congruence|exact Hj].
        -- exfalso. apply (U' 0%nat e); [congruence|reflexivity|exact E].
    + apply touchesb_false in E. cbn [Nat.add]. rewrite IH. split.
      * intros (i & e' & Hi & Te & U'). exists (S i), e'. split; [exact Hi|]. split; [exact Te|].
        intros [|j] f N Hf; [injection Hf as <-; exact E|]. apply (U' j); [congruence|exact Hf].
      * intros (i & e' & Hi & Te & U'). destruct i as [|i]; [simpl in Hi; injection Hi as <-; contradiction|].
        exists i, e'. split; [exact Hi|]. split; [exact Te|]. intros j f N Hf. apply (U' (S j)); [congruence|exact Hf].
Qed.

Section Main.
Context {T U : Type}.
Variable dT : T.
Local Notation graph := (PlanarGraph XO T U).

Lemma add_edge_thru_pending : forall (g g' : graph) ps s d u r, drawn g ps ->
  well_drawn ps (edges g) -> unambiguous ps (edges g) s d -> s <> d ->
  ~ adjacent g s d -> (s < length ps)%nat -> (d < length ps)%nat ->
  add_edge dT g s d u = Ok (g', r) ->
  exists pend ns es, drawn (with_edge g s d u) ps /\
    thru (fun _ => False) ps (edges (with_edge g s d u)) (passes ps s d) pend /\
    split_at_points dT (with_edge g s d u) (map xp pend) [] [] = Ok (g', (ns, es)) /\
    (forall y, In y pend -> on_segment (pt ps s) (pt ps d) y /\ covers ps (edges g) y) /\
    (forall y, on_segment (pt ps s) (pt ps d) y -> covers ps (edges g) y ->
       (forall k, (k < length ps)%nat -> y <> pt ps k) -> In y pend) /\
    (forall k, passes ps s d k -> (In (pt ps k) pend <-> degree g k = 1%nat)).
Proof.
  intros g g' ps s d u r D W (G1 & G2 & G3 & G4) Nsd NA Hs Hd H.
  destruct (planar_inv _ _ W) as (V & A & C & M & _ & _).
  unfold add_edge in H. assert (HB : has_edge_between_nodes g s d = false).
  { destruct (has_edge_between_nodes g s d) eqn:E; [|reflexivity]. apply between_adjacent in E. contradiction. }
  rewrite HB in H. cbn [negb] in H. unfold get_vertex in H.
  destruct (nth_error (nodes g) s) eqn:Es.
  2:{ apply nth_error_None in Es. rewrite (drawn_length _ _ D) in Es. lia. }
  destruct (nth_error (nodes g) d) eqn:Ed.
  2:{ apply nth_error_None in Ed. rewrite (drawn_length _ _ D) in Ed. lia. }
  set (sd := MkEdge s d u DEFAULT_LABEL) in *.
  set (g1 := MkGraph (nodes g) (edges g ++ [sd])) in *.
  assert (Id : (edge_count g1 - 1 = length (edges g))%nat).
  { unfold edge_count, g1. simpl. rewrite app_length. simpl. lia. }
  rewrite Id in H.
  apply bind_ok in H. destruct H as ([g2 [cn ce]] & H & H'). inv H'.
  unfold split_edges_along_edge in H. apply bind_ok in H. destruct H as (is & Hi & H).
  assert (D1 : drawn g1 ps) by exact D.
  assert (V1 : ends_ok ps (edges g1)).
  { intros e He. apply in_app_or in He. destruct He as [He|[<-|[]]]; [now apply V|]. simpl. auto. }
  destruct (inters_list g1 ps (length (edges g)) sd (edges g1) 0 is D1) as (ys & ss & -> & ND & _ & F2 & Cp).
  { unfold g1. simpl. rewrite nth_error_app2, Nat.sub_diag by lia. reflexivity. }
  { intros e [<-|He]; apply V1; [apply in_or_app; right; now left|exact He]. }
  { exact Hi. }
  destruct (unique_xp ys) as (pend & Ep & Sub & Pw & Keep). rewrite Ep in H.
  pose proof (fun y => unique_isolated ys pend y Ep) as Iso.
  assert (Y : forall a y, nth_error ys a = Some y -> exists i e, nth_error ss a = Some i /\
     nth_error (edges g) i = Some e /\ edge_on ps e y /\ on_segment (pt ps s) (pt ps d) y).
  { intros a y Ha. destruct (forall2_nth' _ _ _ _ _ F2 _ _ Ha) as (i & Hi' & e & He & Ni & _ & O1 & O2).
    exists i, e. split; [exact Hi'|]. rewrite Nat.sub_0_r in He. unfold g1 in He. cbn [edges] in He.
    assert (Li : (i < length (edges g ++ [sd]))%nat) by (apply nth_error_Some; congruence).
    rewrite app_length in Li. cbn [length] in Li. rewrite nth_error_app1 in He by lia. auto. }
  assert (Ptn : forall i j, (i < length ps)%nat -> (j < length ps)%nat -> i <> j -> pt ps i <> pt ps j).
  { intros i j Li Lj N E. pose proof (A i j Li Lj N) as B. rewrite E, dist_self0 in B. pose proof eps32_pos. lra. }
  (* a meeting point with an edge that is not parallel is found *)
  assert (Found : forall i e x, nth_error (edges g) i = Some e ->
    cross (pt ps (src e)) (pt ps (dst e)) (pt ps s) (pt ps d) <> 0 ->
    edge_on ps e x -> on_segment (pt ps s) (pt ps d) x ->
    exists a, nth_error ss a = Some i /\ nth_error ys a = Some x).
  { intros i e x He Z H1 H2.
    assert (Li : (i < length (edges g))%nat) by (apply nth_error_Some; congruence).
    assert (Is : In (0 + i)%nat ss).
    { apply (Cp i e x); auto; [|cbn [Nat.add]; lia]. unfold g1. cbn [edges]. now rewrite nth_error_app1. }
    cbn [Nat.add] in Is. apply In_nth_error in Is. destruct Is as [a Ha].
    destruct (forall2_nth _ _ _ _ _ F2 _ _ Ha) as (y & Hy & e' & He' & Ni & Z' & O1 & O2).
    rewrite Nat.sub_0_r in He'. unfold g1 in He'. cbn [edges] in He'. rewrite nth_error_app1 in He' by exact Li.
    assert (e' = e) by congruence. subst e'. exists a. split; [exact Ha|].
    assert (x = y); [|congruence].
    apply (G2 e); auto. eapply nth_error_In; exact He. }
  (* ... and kept, if it is not at a node *)
  assert (Kept : forall i e x, nth_error (edges g) i = Some e -> edge_on ps e x ->
    on_segment (pt ps s) (pt ps d) x -> (forall k, (k < length ps)%nat -> x <> pt ps k) -> In x pend).
  { intros i e x He H1 H2 Nx. pose proof (nth_error_In _ _ He) as Hin. destruct (V e Hin) as (Ne & Le1 & Le2).
    destruct (G3 i e x He H1 H2) as [(k & Lk & E)|[Far Oth]]; [exfalso; exact (Nx k Lk E)|].
    assert (Z : cross (pt ps (src e)) (pt ps (dst e)) (pt ps s) (pt ps d) <> 0).
    { intros Z. destruct (parallel_overlap _ _ _ _ x Z) as [(Q1 & Q2 & Q3)|[(Q1 & Q2 & Q3)|(Q1 & Q2)]]; auto.
      - apply (Nx (src e) Le1). apply (G2 e); auto. apply on_left.
      - apply (Nx (dst e) Le2). apply (G2 e); auto. apply on_right.
      - apply (Nx s Hs). apply (G2 e); auto. apply on_left. }
    destruct (Found i e x He Z H1 H2) as (a & Ha & Hy).
    apply (Keep a x Hy). intros b z Nb Hz.
    destruct (Y b z Hz) as (j & f & Hj & Hf & O1' & O2').
    assert (Nj : j <> i) by (intros ->; apply Nb; eapply nodup_nth_inj; eassumption).
    destruct (G4 e f x z Hin (nth_error_In _ _ Hf) H1 O1' H2 O2') as [<-|Dz]; [|exact Dz].
    exfalso. apply (Oth j f Nj Hf). destruct (V f (nth_error_In _ _ Hf)) as (_ & L1 & L2).
    apply on_near; [exact O1'|rewrite dist_sym|]; now apply Far. }
  exists pend, cn, ce. split; [exact D1|]. split; [|split; [exact H|split; [|split]]].
  - split; [exact V1|]. split; [exact A|]. split; [|split; [|split; [|exact Pw]]].
    + intros k e Hk He Hn. apply in_app_or in He. destruct He as [He|[<-|[]]].
      { exfalso. exact (C k e Hk He Hn). }
      unfold edge_near in Hn. cbn [sd src dst] in Hn.
      assert (Ns : k <> s).
      { intros ->. destruct Hn as (_ & Hn & _). rewrite dist_self0 in Hn. pose proof eps32_pos. lra. }
      assert (Nd : k <> d).
      { intros ->. destruct Hn as (_ & _ & Hn). rewrite dist_self0 in Hn. pose proof eps32_pos. lra. }
      pose proof (G1 k Hk Ns Nd Hn) as O. split; [|exact O]. repeat split; assumption.
    + unfold g1. cbn [edges]. apply pairs_app.
      * apply (pairs_nth _ (meet_thru_sym _ ps _ pend)). intros i j e f N Hi' Hj x _ H1 H2.
        destruct (proj1 (pairs_nth _ (meet_sym ps []) (edges g)) M i j e f N Hi' Hj x H1 H2) as [?|[]]. now left.
      * constructor; constructor.
      * intros e f He [<-|[]] x _ H1 H2. unfold edge_on in H2. cbn [sd src dst] in H2.
        destruct (same_or_not x (pt ps s)) as [->|Ns].
        { left. exists s. split; [exact (node_on_edge ps (edges g) s e V A C Hs He H1)|]. split; [now left|reflexivity]. }
        destruct (same_or_not x (pt ps d)) as [->|Nd].
        { left. exists d. split; [exact (node_on_edge ps (edges g) d e V A C Hd He H1)|]. split; [now right|reflexivity]. }
        right. apply In_nth_error in He. destruct He as [i He].
        destruct (G3 i e x He H1 H2) as [(k & Lk & E)|[Far Oth]].
        { right. exists k. split; [exact Lk|]. split; [|exact E]. subst x.
          split; [exact Lk|]. split; [intros ->; now apply Ns|]. split; [intros ->; now apply Nd|exact H2]. }
        left. apply (Kept i e x He H1 H2). intros k Lk E. specialize (Far k Lk).
        rewrite E, dist_self0 in Far. pose proof eps32_pos. lra.
    + intros y Hy. apply Sub in Hy. apply In_nth_error in Hy. destruct Hy as [a Ha].
      destruct (Y a y Ha) as (i & e & _ & He & O1 & O2).
      destruct (G3 i e y He O1 O2) as [Hk|[Far Oth]]; [now left|]. right. split; [exact Far|].
      intros f Hf Nf. apply in_app_or in Hf. destruct Hf as [Hf|[<-|[]]]; [|exact O2].
      apply In_nth_error in Hf. destruct Hf as [j Hj].
      destruct (Nat.eq_dec j i) as [->|Nj]; [congruence|]. exfalso. exact (Oth j f Nj Hj Nf).
  - intros y Hy. apply Sub, In_nth_error in Hy. destruct Hy as [a Ha].
    destruct (Y a y Ha) as (i & e & _ & He & O1 & O2).
    split; [exact O2|]. exists e. split; [eapply nth_error_In; eassumption|exact O1].
  - intros y O (e & He & Oe) Nk. apply In_nth_error in He. destruct He as [i He]. now apply (Kept i e y).
  - intros k (Lk & Ns & Nd & Ok). unfold degree. rewrite degree_one.
    (* an edge at k is found there *)
    assert (Fk : forall i e, nth_error (edges g) i = Some e -> touches k e ->
      exists a, nth_error ss a = Some i /\ nth_error ys a = Some (pt ps k)).
    { intros i e He Tk. pose proof (nth_error_In _ _ He) as Hin. destruct (V e Hin) as (Ne & Le1 & Le2).
      assert (Oe : edge_on ps e (pt ps k)).
      { destruct Tk as [<-|<-]; [apply on_left|apply on_right]. }
      apply (Found i e _ He); auto. intros Z. destruct Tk as [Tk|Tk].
      - rewrite Tk in Z. destruct (overlap_more _ _ _ _ Z) as (y & Ny & O1 & O2); auto.
        { apply Ptn; auto. congruence. }
        apply Ny. apply (G2 e); auto. unfold edge_on. now rewrite Tk.
      - assert (Z' : cross (pt ps (dst e)) (pt ps (src e)) (pt ps s) (pt ps d) = 0) by (unfold cross in *; lra).
        rewrite Tk in Z'. destruct (overlap_more _ _ _ _ Z') as (y & Ny & O1 & O2); auto.
        { apply Ptn; auto. congruence. }
        apply Ny. apply (G2 e); auto. unfold edge_on. rewrite Tk. now apply on_sym. }
    split.
    + intros Hp. destruct (Iso _ Hp) as (a & Ha & Far). destruct (Y a _ Ha) as (i & e & Hia & He & O1 & O2).
      exists i, e. split; [exact He|].
      split; [exact (node_on_edge ps (edges g) k e V A C Lk (nth_error_In _ _ He) O1)|].
      intros j f Nj Hf Tf. destruct (Fk j f Hf Tf) as (b & Hb & Hyb).
      assert (Nb : b <> a) by (intros ->; congruence). specialize (Far b _ Nb Hyb).
      rewrite dist_self0 in Far. pose proof eps32_pos. lra.
    + intros (i & e & He & Tk & Oth). destruct (Fk i e He Tk) as (a & Ha & Hy).
      apply (Keep a _ Hy). intros b z Nb Hz. destruct (Y b z Hz) as (j & f & Hj & Hf & O1 & O2).
      assert (Nj : j <> i) by (intros ->; apply Nb; eapply nodup_nth_inj; eassumption).
      destruct (G4 e f (pt ps k) z (nth_error_In _ _ He) (nth_error_In _ _ Hf)) as [E|Dz]; auto.
      { destruct Tk as [<-|<-]; [apply on_left|apply on_right]. }
      exfalso. subst z. apply (Oth j f Nj Hf).
      exact (node_on_edge ps (edges g) k f V A C Lk (nth_error_In _ _ Hf) O1).
Qed.

Theorem add_edge_thru : forall (g g' : graph) ps s d u r, drawn g ps ->
  well_drawn ps (edges g) -> unambiguous ps (edges g) s d -> s <> d ->
  ~ adjacent g s d -> (s < length ps)%nat -> (d < length ps)%nat ->
  add_edge dT g s d u = Ok (g', r) ->
  exists qs, drawn g' (ps ++ qs) /\ NoDup (ps ++ qs) /\
    (forall x, covers (ps ++ qs) (edges g') x <->
       covers ps (edges g) x \/ on_segment (pt ps s) (pt ps d) x) /\
    (forall x, In x qs <-> on_segment (pt ps s) (pt ps d) x /\ covers ps (edges g) x /\ ~ In x ps) /\
    planar_except (fun k => passes ps s d k /\ degree g k <> 1%nat) (ps ++ qs) (edges g') /\
    (forall k, passes ps s d k ->
       (degree g k <> 1%nat <-> exists e, In e (edges g') /\ crosses_node (ps ++ qs) k e)) /\
    (well_drawn (ps ++ qs) (edges g') <-> forall k, passes ps s d k -> degree g k = 1%nat).
Proof.
  intros g g' ps s d u r D W GP Nsd NA Hs Hd H.
  destruct (add_edge_thru_pending g g' ps s d u r D W GP Nsd NA Hs Hd H)
    as (pend & ns & es & D1 & I & H1 & Y1 & Y2 & Y3).
  destruct (split_points_thru dT _ pend _ g' ps _ _ _ _ D1 I H1) as (qs & Q1 & Q2 & Q3 & Q4 & Q5 & _).
  pose proof Q2 as (V & A & C & M & _ & _).
  assert (ND : NoDup (ps ++ qs)).
  { apply NoDup_nth with (d := P2 0 0). intros i j Li Lj E. destruct (Nat.eq_dec i j) as [|N]; [assumption|].
    exfalso. pose proof (A i j Li Lj N) as B. unfold pt in B. rewrite E, dist_self0 in B. pose proof eps32_pos. lra. }
  assert (Pin : forall x, (forall k, (k < length ps)%nat -> x <> pt ps k) <-> ~ In x ps).
  { intros x. split.
    - intros N Hin. apply (In_nth ps x (P2 0 0)) in Hin. destruct Hin as (k & Lk & E). exact (N k Lk (eq_sym E)).
    - intros N k Lk ->. apply N. now apply nth_In. }
  assert (Cr : forall k e, (k < length (ps ++ qs))%nat -> In e (edges g') -> crosses_node (ps ++ qs) k e ->
     passes ps s d k /\ degree g k <> 1%nat).
  { intros k e Lk He [Nt Oe]. destruct (node_on_edge_thru _ _ _ k e V A C Lk He Oe) as [B|B]; [contradiction|].
    destruct (C k e Lk He B) as [[Pk Np] _]. split; [exact Pk|]. rewrite <- (Y3 k Pk). apply Np. exact (proj1 Pk). }
  assert (Ms : forall k, passes ps s d k -> degree g k <> 1%nat ->
     exists e, In e (edges g') /\ crosses_node (ps ++ qs) k e).
  { intros k Pk Nd. pose proof Pk as (Lk & N1 & N2 & Ok).
    apply (Q5 k (MkEdge s d u DEFAULT_LABEL) Lk).
    - unfold with_edge. cbn [edges]. apply in_or_app. right. now left.
    - unfold edge_near. cbn [src dst]. destruct I as (_ & A0 & _). apply on_near; auto.
    - now rewrite (Y3 k Pk). }
  exists qs. split; [exact Q1|]. split; [exact ND|]. split; [|split; [|split; [|split]]].
  - intros x. rewrite Q3. unfold with_edge, covers. cbn [edges]. split.
    + intros (e & He & Oe). apply in_app_or in He. destruct He as [He|[<-|[]]]; [left; eauto|right; exact Oe].
    + intros [(e & He & Oe)|O].
      * exists e. split; [apply in_or_app; now left|exact Oe].
      * eexists. split; [apply in_or_app; right; now left|exact O].
  - intros x. rewrite Q4, Pin. split.
    + intros [Hp Nx]. destruct (Y1 x Hp) as [O1 O2]. auto.
    + intros (O1 & O2 & Nx). split; [|exact Nx]. apply Y2; auto. now apply Pin.
  - split; [exact V|]. split; [exact Cr|]. intros i j e f x N Hi Hj He Hf.
    destruct (proj1 (pairs_nth _ (meet_thru_sym _ _ _ []) _) M i j e f N Hi Hj x (fun F => F) He Hf)
      as [(k & T1 & T2 & E)|[[]|(k & Lk & [Pk Np] & E)]].
    + exists k. split; [|split; [exact E|left; split; assumption]].
      destruct (V e (nth_error_In _ _ Hi)) as (_ & L1 & L2). destruct T1 as [<-|<-]; assumption.
    + exists k. split; [exact Lk|]. split; [exact E|]. right. split; [exact Pk|].
      rewrite <- (Y3 k Pk). apply Np. exact (proj1 Pk).
  - intros k Pk. split; [now apply Ms|]. intros (e & He & Ce). apply (Cr k e); auto.
    pose proof (proj1 Pk). rewrite app_length. lia.
  - split.
    + intros (_ & _ & _ & Pl & _) k Pk. destruct (Nat.eq_dec (degree g k) 1) as [E|E]; [exact E|].
      exfalso. destruct (Ms k Pk E) as (e & He & Nt & Oe). apply (Pl k e); auto.
      pose proof (proj1 Pk). rewrite app_length. lia.
    + intros All. apply inv_planar. split; [exact V|]. split; [exact A|]. split; [|split; [|split; [easy|constructor]]].
      * intros k e Lk He B. destruct (C k e Lk He B) as [[Pk Np] _].
        apply (Np (proj1 Pk)). apply (Y3 k Pk). now apply All.
      * apply (pairs_nth _ (meet_sym _ [])). intros i j e f N Hi Hj x H2 H3. left.
        destruct (proj1 (pairs_nth _ (meet_thru_sym _ _ _ []) _) M i j e f N Hi Hj x (fun F => F) H2 H3)
          as [K|[[]|(k & Lk & [Pk Np] & E)]]; [exact K|].
        exfalso. apply (Np (proj1 Pk)). apply (Y3 k Pk). now apply All.
Qed.
End Main.

(** General position is the case without passed nodes. *)
Lemma general_unambiguous : forall U ps (es : list (Edge U)) s d,
  well_drawn ps es -> s <> d -> (s < length ps)%nat -> (d < length ps)%nat ->
  (forall e, In e es -> ~ joins s d e) ->
  general_position ps es s d -> unambiguous ps es s d /\ forall k, ~ passes ps s d k.
Proof.
  intros U ps es s d W Nsd Hs Hd NA (G1 & G2). destruct (planar_inv _ _ W) as (V & A & C & M & _ & _).
  pose proof eps32_pos as Pe.
  assert (NP : forall k, ~ passes ps s d k).
  { intros k (Lk & N1 & N2 & O). apply (G1 k Lk N1 N2). apply on_near; [exact O| |]; apply A; auto. }
  assert (Ptn : forall i j, (i < length ps)%nat -> (j < length ps)%nat -> i <> j -> pt ps i <> pt ps j).
  { intros i j Li Lj N E. pose proof (A i j Li Lj N) as B. rewrite E, dist_self0 in B. lra. }
  (* a node on the segment is one of its ends *)
  assert (NE : forall k, (k < length ps)%nat -> on_segment (pt ps s) (pt ps d) (pt ps k) -> k = s \/ k = d).
  { intros k Lk O. destruct (Nat.eq_dec k s) as [|N1]; [now left|]. destruct (Nat.eq_dec k d) as [|N2]; [now right|].
    exfalso. exact (NP k (conj Lk (conj N1 (conj N2 O)))). }
  (* the ends are not both on one edge *)
  assert (SD : forall e, In e es -> edge_on ps e (pt ps s) -> edge_on ps e (pt ps d) -> False).
  { intros e He Q1 Q2. apply (NA e He).
    pose proof (node_on_edge ps es s e V A C Hs He Q1) as T1.
    pose proof (node_on_edge ps es d e V A C Hd He Q2) as T2.
    unfold touches, joins in *. destruct T1 as [T1|T1], T2 as [T2|T2]; auto; congruence. }
  assert (Two : forall e x y, In e es -> edge_on ps e x -> edge_on ps e y ->
     on_segment (pt ps s) (pt ps d) x -> on_segment (pt ps s) (pt ps d) y -> x <> y ->
     x <> pt ps s -> x <> pt ps d -> False).
  { intros e x y He O1 O2 O3 O4 Nxy Ns Nd. destruct (V e He) as (Ne & L1 & L2).
    destruct (Req_dec (cross (pt ps (src e)) (pt ps (dst e)) (pt ps s) (pt ps d)) 0) as [Z|Z].
    - destruct (parallel_overlap _ _ _ _ x Z) as [(Q1 & Q2 & Q3)|[(Q1 & Q2 & Q3)|(Q1 & Q2)]]; auto.
      + destruct (NE _ L1 Q1) as [E|E]; rewrite E in *; contradiction.
      + destruct (NE _ L2 Q1) as [E|E]; rewrite E in *; contradiction.
      + exact (SD e He Q1 Q2).
    - apply Nxy. eapply segment_intersection_unique; [exact Z| | | |]; apply on_segment_line; eassumption. }
  assert (Sub : forall e x y, In e es -> edge_on ps e x -> edge_on ps e y ->
     on_segment (pt ps s) (pt ps d) x -> on_segment (pt ps s) (pt ps d) y -> x = y).
  { intros e x y He O1 O2 O3 O4. destruct (same_or_not x y) as [|Nxy]; [assumption|]. exfalso.
    destruct (same_or_not x (pt ps s)) as [Ex|Nx]; [|destruct (same_or_not x (pt ps d)) as [Ex|Nx']].
    - destruct (same_or_not y (pt ps s)) as [Ey|Ny]; [congruence|].
      destruct (same_or_not y (pt ps d)) as [Ey|Ny'].
      + subst x y. exact (SD e He O1 O2).
      + apply (Two e y x); auto.
    - destruct (same_or_not y (pt ps d)) as [Ey|Ny]; [congruence|].
      destruct (same_or_not y (pt ps s)) as [Ey|Ny'].
      + subst x y. exact (SD e He O2 O1).
      + apply (Two e y x); auto.
    - apply (Two e x y); auto. }
  split; [|exact NP]. split; [|split; [exact Sub|split]].
  - intros k Lk N1 N2 Hn. exfalso. exact (G1 k Lk N1 N2 Hn).
  - intros i e x He O1 O2.
    destruct (same_or_not x (pt ps s)) as [->|Ns]; [left; now exists s|].
    destruct (same_or_not x (pt ps d)) as [->|Nd]; [left; now exists d|].
    right. destruct (G2 i e x He O1 O2 Ns Nd) as [Far Oth]. split; [exact Far|].
    intros j f Nj Hf. exact (proj1 (Oth j f Nj Hf)).
  - intros e f x y He Hf O1 O2 O3 O4.
    destruct (same_or_not x y) as [|Nxy]; [now left|]. right.
    apply In_nth_error in He, Hf. destruct He as [i He], Hf as [j Hf].
    destruct (Nat.eq_dec i j) as [->|Nij].
    { exfalso. apply Nxy. assert (e = f) by congruence. subst f. apply (Sub e); auto. eapply nth_error_In; exact He. }
    destruct (same_or_not x (pt ps s)) as [Ex|Nx]; [|destruct (same_or_not x (pt ps d)) as [Ex|Nx']].
    3:{ destruct (G2 i e x He O1 O3 Nx Nx') as [_ Oth]. apply (proj2 (Oth j f (not_eq_sym Nij) Hf) y O2 O4). }
    + destruct (same_or_not y (pt ps d)) as [Ey|Ny'].
      * subst x y. now apply A.
      * assert (Ny : y <> pt ps s) by congruence. subst x. rewrite dist_sym.
        now apply (proj1 (G2 j f y Hf O2 O4 Ny Ny')).
    + destruct (same_or_not y (pt ps s)) as [Ey|Ny'].
      * subst x y. apply A; auto.
      * assert (Ny : y <> pt ps d) by congruence. subst x. rewrite dist_sym.
        now apply (proj1 (G2 j f y Hf O2 O4 Ny' Ny)).
Qed.
