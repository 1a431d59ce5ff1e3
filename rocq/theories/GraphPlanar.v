(** * Planarity of the drawing, in exact arithmetic and general position. *)
From Coq Require Import Reals List Arith Bool Lia Lra Permutation.
From Verif Require Import Scalar Utils Graph GraphSpec ListSpec Laws Closest PlaneSpec UtilsReal
  PlanarSpec GraphAdd GraphAddProps GraphRemove GraphHistory.
Import ListNotations.
Local Open Scope R_scope.

(** ** Segments *)
Lemma along_0 : forall a b, along a b 0 = a.
Proof. intros [ax ay] b. unfold along; simpl. f_equal; ring. Qed.
Lemma along_1 : forall a b, along a b 1 = b.
Proof. intros [ax ay] [bx by_]. unfold along; simpl. f_equal; ring. Qed.
Lemma along_rev : forall a b t, along a b t = along b a (1 - t).
Proof. intros. unfold along; simpl. f_equal; ring. Qed.
Lemma on_sym : forall a b x, on_segment a b x -> on_segment b a x.
Proof. intros a b x (t & Ht & ->). exists (1 - t). split; [lra|apply along_rev]. Qed.
Lemma on_left : forall a b, on_segment a b a.
Proof. intros. exists 0. split; [lra|]. now rewrite along_0. Qed.
Lemma on_right : forall a b, on_segment a b b.
Proof. intros. exists 1. split; [lra|]. now rewrite along_1. Qed.

Lemma along_along : forall a b s t, along a (along a b s) t = along a b (t * s).
Proof. intros. unfold along; simpl. f_equal; ring. Qed.

Lemma on_half : forall a b x y, on_segment a b x -> on_segment a x y -> on_segment a b y.
Proof.
  intros a b x y (s & Hs & ->) (t & Ht & ->). rewrite along_along. exists (t * s).
  split; [split; nra|reflexivity].
Qed.

Lemma two_on : forall a b x y, on_segment a b x -> on_segment a b y ->
  on_segment a x y \/ on_segment b x y.
Proof.
  assert (A : forall a b s t, 0 <= s -> t <= s -> 0 <= t -> on_segment a (along a b s) (along a b t)).
  { intros a b s t Hs Ht H0. destruct (Req_dec s 0) as [->|N].
    - replace t with 0 by lra. apply on_right.
    - exists (t / s). split.
      + split; [apply Rmult_le_pos; [lra|]; apply Rlt_le, Rinv_0_lt_compat; lra|].
        apply (Rmult_le_reg_r s); [lra|]. unfold Rdiv. rewrite Rmult_assoc, Rinv_l, Rmult_1_r; lra.
      + rewrite along_along. f_equal. field. exact N. }
  intros a b x y (s & Hs & ->) (t & Ht & ->).
  destruct (Rle_dec t s) as [L|L].
  - left. apply A; lra.
  - right. rewrite (along_rev a b s), (along_rev a b t). apply A; lra.
Qed.

Lemma near_sym : forall a b p, near a b p -> near b a p.
Proof.
  intros a b p (H1 & H2 & H3). unfold near.
  rewrite (dist_sym b p), (dist_sym p a), (dist_sym b a). repeat split; lra.
Qed.

(** A point in the needle of a half is in the needle of the whole. *)
Lemma near_half : forall a b x p, on_segment a b x -> near a x p -> eps32 < dist p b -> near a b p.
Proof.
  intros a b x p H (H1 & H2 & H3) H4. pose proof (on_segment_dist a b x H).
  pose proof (triangle p x b). unfold near. repeat split; lra.
Qed.

Lemma on_near : forall a b p, on_segment a b p -> eps32 < dist a p -> eps32 < dist p b -> near a b p.
Proof.
  intros a b p H H1 H2. pose proof (on_segment_dist a b p H). pose proof eps32_pos.
  unfold near. repeat split; lra.
Qed.

Lemma near_half_on : forall a b x y, on_segment a b x -> near a x y -> on_segment a b y ->
  eps32 < dist y x -> on_segment a x y.
Proof.
  intros a b x y Hx (H1 & H2 & H3) Hy H. destruct (two_on a b x y Hx Hy) as [O|O]; [exact O|].
  exfalso. pose proof (on_segment_dist _ _ _ O). pose proof (on_segment_dist _ _ _ Hx).
  pose proof (on_segment_dist _ _ _ Hy). pose proof (dist_sym b y). pose proof (dist_sym b x).
  pose proof eps32_pos. lra.
Qed.

(** ** Pairs of slots *)
Section Pairs.
Context {A : Type} (P : A -> A -> Prop).
Hypothesis P_sym : forall x y, P x y -> P y x.

Lemma pairs_nth : forall l, ForallOrdPairs P l <->
  (forall i j x y, i <> j -> nth_error l i = Some x -> nth_error l j = Some y -> P x y).
Proof.
  intros l. split.
  - intros H. induction H as [|a l H1 H2 IH]; intros i j x y N Hi Hj.
    + destruct i; discriminate.
    + rewrite Forall_forall in H1. destruct i as [|i], j as [|j]; simpl in *.
      * congruence.
      * inv Hi. apply H1. eapply nth_error_In; eassumption.
      * inv Hj. apply P_sym, H1. eapply nth_error_In; eassumption.
      * apply (IH i j); auto.
  - induction l as [|a l IH]; intros H; constructor.
    + apply Forall_forall. intros y Hy. apply In_nth_error in Hy. destruct Hy as [j Hj].
      apply (H 0%nat (S j)); auto.
    + apply IH. intros i j x y N Hi Hj. apply (H (S i) (S j)); auto.
Qed.

Lemma pairs_perm : forall l l', Permutation l l' -> ForallOrdPairs P l -> ForallOrdPairs P l'.
Proof.
  induction 1 as [|x l l' Hp IH|x y l|l l' l'' H1 IH1 H2 IH2]; intros H.
  - constructor.
  - inv H. constructor; [|auto]. eapply Permutation_Forall; eassumption.
  - inv H. inv H3. inv H2. constructor; [constructor; auto|]. constructor; auto.
  - auto.
Qed.
End Pairs.

Lemma pairs_app : forall A (P : A -> A -> Prop) l l', ForallOrdPairs P l -> ForallOrdPairs P l' ->
  (forall x y, In x l -> In y l' -> P x y) -> ForallOrdPairs P (l ++ l').
Proof.
  intros A P l l' H H' C. induction H as [|a l H1 H2 IH]; simpl; [exact H'|].
  constructor.
  - apply Forall_app. split; [exact H1|]. apply Forall_forall. intros y Hy. apply C; [now left|exact Hy].
  - apply IH. intros x y Hx. apply C. now right.
Qed.

Lemma pairs_flat_map : forall A B (P : A -> A -> Prop) (Q : B -> B -> Prop) (g : A -> list B) l,
  ForallOrdPairs P l ->
  (forall x, In x l -> ForallOrdPairs Q (g x)) ->
  (forall x y x' y', In x l -> In y l -> P x y -> In x' (g x) -> In y' (g y) -> Q x' y') ->
  ForallOrdPairs Q (flat_map g l).
Proof.
  intros A B P Q g l H. induction H as [|a l H1 H2 IH]; intros I C; simpl; [constructor|].
  apply pairs_app.
  - apply I. now left.
  - apply IH.
    + intros x Hx. apply I. now right.
    + intros x y x' y' Hx Hy. apply C; now right.
  - intros x' y' Hx Hy. apply in_flat_map in Hy. destruct Hy as (y & Hy & Hy').
    apply (C a y); auto; [now left|now right|]. rewrite Forall_forall in H1. now apply H1.
Qed.

Definition pieces {U} (on : Edge U -> bool) (k : nat) (e : Edge U) : list (Edge U) :=
  if on e then [half1 k e; half2 k e] else [e].

Lemma split_edges_perm : forall U (on : Edge U -> bool) k es,
  Permutation (flat_map (pieces on k) es) (split_edges on k es).
Proof.
  intros U on k es. unfold split_edges. induction es as [|e es IH]; [constructor|].
  cbn [flat_map map filter]. unfold pieces at 1. destruct (on e); cbn [map app].
  - constructor. eapply Permutation_trans; [apply perm_skip, IH|]. apply Permutation_middle.
  - constructor. exact IH.
Qed.

Lemma split_edges_in : forall U (on : Edge U -> bool) k es e', In e' (split_edges on k es) <->
  exists e, In e es /\ In e' (pieces on k e).
Proof.
  intros U on k es e'. rewrite <- in_flat_map. split; apply Permutation_in;
    [apply Permutation_sym|]; apply split_edges_perm.
Qed.

(** ** One split of a drawing *)
Section Step.
Context {U : Type}.
Local Notation edge := (Edge U).

(** The two edges meet only at a common end or at a pending point. *)
Definition meet (P : list point) (pend : list point) (e f : edge) : Prop :=
  forall x, edge_on P e x -> edge_on P f x ->
    (exists k, touches k e /\ touches k f /\ x = pt P k) \/ In x pend.

Lemma meet_sym : forall P pend e f, meet P pend e f -> meet P pend f e.
Proof.
  intros P pend e f H x H1 H2. destruct (H x H2 H1) as [(k & A & B & C)|]; [left; exists k|right]; auto.
Qed.

Definition ends_ok (P : list point) (es : list edge) : Prop :=
  forall e, In e es -> src e <> dst e /\ (src e < length P)%nat /\ (dst e < length P)%nat.
Definition apart (P : list point) : Prop :=
  forall i j, (i < length P)%nat -> (j < length P)%nat -> i <> j -> eps32 < dist (pt P i) (pt P j).
Definition clear (P : list point) (es : list edge) : Prop :=
  forall k e, (k < length P)%nat -> In e es -> ~ edge_near P e (pt P k).
Definition fresh (P : list point) (es : list edge) (y : point) : Prop :=
  (forall k, (k < length P)%nat -> eps32 < dist y (pt P k)) /\
  forall e, In e es -> edge_near P e y -> edge_on P e y.
Definition loc (P : list point) (es : list edge) (y : point) : Prop :=
  (exists k, (k < length P)%nat /\ y = pt P k) \/ fresh P es y.

Definition inv_drawn (P : list point) (es : list edge) (pend : list point) : Prop :=
  ends_ok P es /\ apart P /\ clear P es /\ ForallOrdPairs (meet P pend) es /\
  (forall y, In y pend -> loc P es y) /\
  ForallOrdPairs (fun x y => eps32 < dist x y) pend.

Lemma pt_app : forall P q i, (i < length P)%nat -> pt (P ++ q) i = pt P i.
Proof. intros. unfold pt. now apply app_nth1. Qed.
Lemma pt_new : forall P x, pt (P ++ [x]) (length P) = x.
Proof. intros. unfold pt. rewrite app_nth2, Nat.sub_diag; [reflexivity|lia]. Qed.

(** A node on an edge is an end of it. *)
Lemma node_on_edge : forall P es k e, ends_ok P es -> apart P -> clear P es ->
  (k < length P)%nat -> In e es -> edge_on P e (pt P k) -> touches k e.
Proof.
  intros P es k e V A C Hk He On. destruct (V e He) as (N & Hs & Hd). unfold touches.
  destruct (Nat.eq_dec (src e) k) as [E1|N1]; [now left|].
  destruct (Nat.eq_dec (dst e) k) as [E2|N2]; [now right|].
  exfalso. apply (C k e Hk He). apply on_near; [exact On| |]; apply A; auto.
Qed.

Lemma inv_planar : forall P es, inv_drawn P es [] -> well_drawn P es.
Proof.
  intros P es (V & A & C & M & _ & _). split; [exact V|]. split; [exact A|]. split; [exact C|].
  split.
  - intros k e Hk He N On. apply N. eapply node_on_edge; eassumption.
  - intros i j ei ej x N Hi Hj H1 H2.
    destruct (proj1 (pairs_nth _ (meet_sym P []) es) M i j ei ej N Hi Hj x H1 H2) as [H|[]]. exact H.
Qed.

Lemma planar_inv : forall P es, well_drawn P es -> inv_drawn P es [].
Proof.
  intros P es (V & A & C & _ & M). split; [exact V|]. split; [exact A|]. split; [exact C|].
  split; [|split; [easy|constructor]].
  apply (pairs_nth _ (meet_sym P [])). intros i j e f N Hi Hj x H1 H2. left.
  exact (M i j e f x N Hi Hj H1 H2).
Qed.

(** A pending point that is a node position needs no split. *)
Lemma drop_node : forall P es k pend, (k < length P)%nat ->
  inv_drawn P es (pt P k :: pend) -> inv_drawn P es pend.
Proof.
  intros P es k pend Hk (V & A & C & M & L & F). repeat (split; [assumption|]).
  split; [|split].
  - apply (pairs_nth _ (meet_sym P pend)). intros i j e f N Hi Hj x H1 H2.
    destruct (proj1 (pairs_nth _ (meet_sym P _) es) M i j e f N Hi Hj x H1 H2) as [H|[<-|H]].
    + now left.
    + left. exists k. apply nth_error_In in Hi, Hj.
      split; [|split; [|reflexivity]]; eapply node_on_edge; eassumption.
    + now right.
  - intros y Hy. apply L. now right.
  - now inv F.
Qed.

Lemma edge_on_app : forall P q es (e : edge) x, ends_ok P es -> In e es ->
  edge_on (P ++ q) e x <-> edge_on P e x.
Proof. intros P q es e x V He. destruct (V e He) as (_ & H1 & H2). unfold edge_on. now rewrite !pt_app. Qed.
Lemma edge_near_app : forall P q es (e : edge) x, ends_ok P es -> In e es ->
  edge_near (P ++ q) e x <-> edge_near P e x.
Proof. intros P q es e x V He. destruct (V e He) as (_ & H1 & H2). unfold edge_near. now rewrite !pt_app. Qed.

(** The pieces of an edge: an end [a] of it (the other being [b]) and the new node. *)
Lemma piece_cases : forall (on : edge -> bool) k e e', In e' (pieces on k e) ->
  (on e = false /\ e' = e) \/
  (on e = true /\ dst e' = k /\
   ((src e' = src e) \/ (src e' = dst e))).
Proof.
  intros on k e e' H. unfold pieces in H. destruct (on e); simpl in H.
  - right. split; [reflexivity|]. destruct H as [<-|[<-|[]]]; simpl; auto.
  - left. destruct H as [<-|[]]; auto.
Qed.

Section One.
Variables (P : list point) (es : list edge) (pend : list point) (x : point).
Variable on : edge -> bool.
Hypothesis I : inv_drawn P es (x :: pend).
Hypothesis Fx : fresh P es x.
Hypothesis On : forall e, In e es -> (on e = true <-> edge_near P e x).
Let n := length P.
Let P' := P ++ [x].
Let es' := split_edges on n es.

Let V : ends_ok P es := proj1 I.
Let A : apart P := proj1 (proj2 I).
Let C : clear P es := proj1 (proj2 (proj2 I)).

(** Each piece lies on its edge; for a half, [a] is the end it keeps and [b] the other. *)
Lemma piece_inv : forall e e', In e es -> In e' (pieces on n e) ->
  (on e = false /\ e' = e) \/
  (on e = true /\ dst e' = n /\ exists a b, src e' = a /\ (a < n)%nat /\ (b < n)%nat /\ a <> b /\
     touches a e /\ (forall k, touches k e -> k = a \/ k = b) /\
     on_segment (pt P a) (pt P b) x /\ near (pt P a) (pt P b) x /\
     forall y, (edge_on P e y <-> on_segment (pt P a) (pt P b) y) /\
               (edge_near P e y <-> near (pt P a) (pt P b) y)).
Proof.
  intros e e' He H. destruct (V e He) as (N & Hs & Hd).
  destruct (piece_cases on n e e' H) as [H'|(T & D & H')]; [now left|]. right.
  split; [exact T|]. split; [exact D|].
  assert (Nx : edge_near P e x) by (now apply On).
  assert (Ox : edge_on P e x) by (now apply (proj2 Fx)).
  destruct H' as [S|S].
  - exists (src e), (dst e). unfold touches. repeat (split; [auto; fail|]).
    split; [intros k [<-|<-]; auto|]. split; [exact Ox|]. split; [exact Nx|]. intros y. split; reflexivity.
  - exists (dst e), (src e). unfold touches. repeat (split; [auto; fail|]).
    split; [intros k [<-|<-]; auto|]. split; [now apply on_sym|]. split; [now apply near_sym|].
    intros y. unfold edge_on, edge_near. split; split; first [apply on_sym|apply near_sym].
Qed.

Lemma half_on : forall e' : edge, dst e' = n -> (src e' < n)%nat -> forall y,
  edge_on P' e' y <-> on_segment (pt P (src e')) x y.
Proof.
  intros e' D S y. unfold edge_on, P'. rewrite D. unfold n. rewrite pt_new, pt_app by assumption. reflexivity.
Qed.
Lemma half_near : forall e' : edge, dst e' = n -> (src e' < n)%nat -> forall y,
  edge_near P' e' y <-> near (pt P (src e')) x y.
Proof.
  intros e' D S y. unfold edge_near, P'. rewrite D. unfold n. rewrite pt_new, pt_app by assumption. reflexivity.
Qed.

Lemma piece_on : forall e e' y, In e es -> In e' (pieces on n e) -> edge_on P' e' y -> edge_on P e y.
Proof.
  intros e e' y He H Hy. destruct (piece_inv e e' He H) as [(_ & ->)|(_ & D & a & b & S & La & Lb & N & _ & _ & Ox & _ & Q)].
  - unfold P' in Hy. now apply (edge_on_app P [x] es).
  - subst a. apply half_on in Hy; auto. apply Q. eapply on_half; eassumption.
Qed.

Lemma length_P' : length P' = S n.
Proof. unfold P'. rewrite app_length. simpl. fold n. lia. Qed.

Lemma step_ends : ends_ok P' es'.
Proof.
  intros e' H. rewrite length_P'. apply split_edges_in in H. destruct H as (e & He & H).
  destruct (V e He) as (N & Hs & Hd). fold n in Hs, Hd.
  destruct (piece_inv e e' He H) as [(_ & ->)|(_ & D & a & b & S & La & _)].
  - repeat split; auto.
  - rewrite D, S. repeat split; lia.
Qed.

Lemma step_apart : apart P'.
Proof.
  intros i j Hi Hj N. rewrite length_P' in Hi, Hj. unfold P'.
  destruct (Nat.eq_dec i n) as [->|Ni], (Nat.eq_dec j n) as [->|Nj].
  - contradiction.
  - unfold n at 1. rewrite pt_new, pt_app by (fold n; lia). apply (proj1 Fx). fold n. lia.
  - unfold n at 1. rewrite pt_new, pt_app by (fold n; lia). rewrite dist_sym. apply (proj1 Fx). fold n. lia.
  - rewrite !pt_app by (fold n; lia). apply A; fold n; lia.
Qed.

(** Being far from every node and from x, a point in a needle of a piece is in that of
    the whole edge. *)
Lemma piece_near : forall e e' y, In e es -> In e' (pieces on n e) ->
  (forall k, (k < n)%nat -> touches k e -> eps32 < dist y (pt P k)) ->
  edge_near P' e' y -> edge_near P e y.
Proof.
  intros e e' y He H Far Hy.
  destruct (piece_inv e e' He H) as [(_ & ->)|(_ & D & a & b & S & La & Lb & N & Ta & Tk & Ox & Nx & Q)].
  - unfold P' in Hy. now apply (edge_near_app P [x] es).
  - subst a. apply half_near in Hy; auto. apply Q. eapply near_half; try eassumption.
    apply Far; [exact Lb|]. unfold touches in *. destruct (V e He) as (N' & _).
    destruct (Nat.eq_dec (src e) b) as [|N1]; [auto|].
    destruct (Nat.eq_dec (dst e) b) as [|N2]; [auto|].
    destruct (Tk (src e)) as [E1|]; auto. destruct (Tk (dst e)) as [E2|]; auto. congruence.
Qed.

Lemma step_clear : clear P' es'.
Proof.
  intros k e' Hk H Hn. rewrite length_P' in Hk. apply split_edges_in in H. destruct H as (e & He & H).
  pose proof (piece_inv e e' He H) as PI.
  destruct (Nat.eq_dec k n) as [->|Nk].
  - unfold P', n in Hn. rewrite pt_new in Hn. fold P' n in Hn.
    destruct PI as [(F & ->)|(_ & D & a & b & S & La & _)].
    + apply (edge_near_app P [x] es) in Hn; auto. apply On in Hn; auto. congruence.
    + subst a. apply half_near in Hn; auto. destruct Hn as (_ & _ & Hn). rewrite dist_self0 in Hn.
      pose proof eps32_pos. lra.
  - assert (Lk : (k < n)%nat) by lia. unfold P' in Hn. rewrite pt_app in Hn by exact Lk. fold P' in Hn.
    destruct PI as [(F & ->)|(_ & D & a & b & S & La & Lb & N & Ta & Tk & Ox & Nx & Q)].
    + apply (edge_near_app P [x] es) in Hn; auto. apply (C k e); auto.
    + subst a. apply half_near in Hn; auto.
      destruct (Nat.eq_dec k b) as [->|Nb].
      * destruct Hn as (H1 & _ & H3). pose proof (on_segment_dist _ _ _ Ox).
        rewrite (dist_sym (pt P b) x) in H1. rewrite (dist_sym (pt P b) x) in H3.
        pose proof eps32_pos. lra.
      * apply (C k e Lk He). apply Q. eapply near_half; try eassumption. apply A; auto.
Qed.

(** A common end of two edges that lies on a piece is an end of the piece. *)
Lemma piece_touch : forall e e' k, In e es -> In e' (pieces on n e) -> (k < n)%nat -> touches k e ->
  edge_on P' e' (pt P k) -> touches k e'.
Proof.
  intros e e' k He H Lk Tk' Hy.
  destruct (piece_inv e e' He H) as [(_ & ->)|(_ & D & a & b & S & La & Lb & N & Ta & Tk & Ox & Nx & Q)].
  - exact Tk'.
  - subst a. destruct (Tk k Tk') as [->| ->]; [now left|]. exfalso.
    apply half_on in Hy; auto. pose proof (on_segment_dist _ _ _ Hy). pose proof (on_segment_dist _ _ _ Ox).
    destruct Nx as (_ & _ & Nb). rewrite (dist_sym (pt P b) x) in H0.
    pose proof eps32_pos. lra.
Qed.

Lemma piece_x : forall e e', In e es -> In e' (pieces on n e) -> edge_on P' e' x -> touches n e'.
Proof.
  intros e e' He H Hy.
  destruct (piece_inv e e' He H) as [(F & ->)|(_ & D & _)]; [|now right].
  exfalso. apply (edge_on_app P [x] es) in Hy; auto. destruct (V e He) as (N & Hs & Hd).
  assert (edge_near P e x); [|apply On in H0; auto; congruence].
  apply on_near; [exact Hy| |]; [rewrite dist_sym|]; apply (proj1 Fx); assumption.
Qed.

Lemma step_meet : ForallOrdPairs (meet P' pend) es'.
Proof.
  apply (pairs_perm _ (meet_sym P' pend) _ _ (split_edges_perm _ on n es)).
  apply (pairs_flat_map _ _ (meet P (x :: pend))).
  - exact (proj1 (proj2 (proj2 (proj2 I)))).
  - intros e He. pose proof (piece_inv e) as PI. unfold pieces in *. destruct (on e) eqn:T.
    + constructor; [|constructor; [constructor|constructor]].
      constructor; [|constructor]. intros y H1 H2. left. exists n.
      split; [now right|]. split; [now right|]. unfold P'.
      destruct (V e He) as (N & Hs & Hd). fold n in Hs, Hd.
      apply half_on in H1; auto. apply half_on in H2; auto. cbn [half1 half2 src] in *.
      unfold n. rewrite pt_new.
      assert (Ox : edge_on P e x) by (apply (proj2 Fx e He); apply On; auto).
      unfold edge_on in Ox. pose proof (on_segment_dist _ _ _ H1). pose proof (on_segment_dist _ _ _ H2).
      pose proof (on_segment_dist _ _ _ Ox). pose proof (triangle (pt P (src e)) y (pt P (dst e))).
      rewrite (dist_sym (pt P (dst e)) y), (dist_sym (pt P (dst e)) x) in H0.
      apply dist_zero. pose proof (dist_nonneg y x). lra.
    + constructor; constructor.
  - intros e f e' f' He Hf M He' Hf' y H1 H2.
    destruct (M y) as [(k & Te & Tf & ->)|[<-|H]].
    + now apply (piece_on e e').
    + now apply (piece_on f f').
    + left. exists k. assert (Lk : (k < n)%nat).
      { destruct (V e He) as (_ & Hs & Hd). destruct Te as [<-|<-]; assumption. }
      split; [now apply (piece_touch e e' k)|]. split; [now apply (piece_touch f f' k)|].
      unfold P'. now rewrite pt_app.
    + left. exists n. split; [now apply (piece_x e e')|]. split; [now apply (piece_x f f')|].
      unfold P', n. now rewrite pt_new.
    + now right.
Qed.

Lemma step_loc : forall y, In y pend -> loc P' es' y.
Proof.
  intros y Hy. destruct (proj1 (proj2 (proj2 (proj2 (proj2 I)))) y) as [(k & Lk & ->)|(F1 & F2)];
    [now right| |].
  - left. exists k. rewrite length_P'. split; [fold n in Lk; lia|]. unfold P'. now rewrite pt_app.
  - right. assert (Dx : eps32 < dist y x).
    { pose proof (proj2 (proj2 (proj2 (proj2 (proj2 I))))) as Pw. inv Pw.
      rewrite Forall_forall in H1. rewrite dist_sym. now apply H1. }
    split.
    + intros k Hk. rewrite length_P' in Hk. unfold P'. destruct (Nat.eq_dec k n) as [->|N].
      * unfold n. now rewrite pt_new.
      * rewrite pt_app by (fold n; lia). apply F1. fold n. lia.
    + intros e' H Hn. apply split_edges_in in H. destruct H as (e & He & H).
      assert (Hon : edge_on P e y).
      { apply F2; [exact He|]. eapply piece_near; try eassumption. intros k Lk _. now apply F1. }
      destruct (piece_inv e e' He H) as [(_ & ->)|(_ & D & a & b & S & La & Lb & N & Ta & Tk & Ox & Nx & Q)].
      * unfold P'. now apply (edge_on_app P [x] es).
      * subst a. apply half_near in Hn; auto. apply half_on; auto.
        apply (near_half_on _ (pt P b)); auto. now apply Q.
Qed.

Lemma step_inv : inv_drawn P' es' pend.
Proof.
  split; [exact step_ends|]. split; [exact step_apart|]. split; [exact step_clear|].
  split; [exact step_meet|]. split; [exact step_loc|].
  pose proof (proj2 (proj2 (proj2 (proj2 (proj2 I))))) as Pw. now inv Pw.
Qed.

Lemma step_covers : forall y, covers P' es' y <-> covers P es y.
Proof.
  intros y. split; intros (e & He & Hy).
  - apply split_edges_in in He. destruct He as (e0 & He0 & H). exists e0. split; [exact He0|].
    eapply piece_on; eassumption.
  - destruct (on e) eqn:T.
    + assert (Ox : edge_on P e x) by (apply (proj2 Fx e He); apply On; auto).
      destruct (V e He) as (N & Hs & Hd). fold n in Hs, Hd.
      destruct (two_on _ _ _ _ Ox Hy) as [H|H]; [exists (half1 n e)|exists (half2 n e)];
        (split; [apply split_edges_in; exists e; split; [exact He|]; unfold pieces; rewrite T; simpl; auto|]);
        apply half_on; auto.
    + exists e. split; [apply split_edges_in; exists e; split; [exact He|]; unfold pieces; rewrite T; now left|].
      now apply (edge_on_app P [x] es).
Qed.
End One.
End Step.

(** ** Parallel overlapping segments *)
Lemma parallel_overlap : forall a b s d x, cross a b s d = 0 -> s <> d ->
  on_segment a b x -> on_segment s d x -> x <> s -> x <> d ->
  (on_segment s d a /\ a <> s /\ a <> d) \/ (on_segment s d b /\ b <> s /\ b <> d) \/
  (on_segment a b s /\ on_segment a b d).
Proof.
  intros a b s d x Z N (u & Hu & Ex) (t & Ht & Ex') Ns Nd.
  assert (Ec : exists c, vx b - vx a = c * (vx d - vx s) /\ vy b - vy a = c * (vy d - vy s)).
  { unfold cross in Z. destruct (Req_dec (vx d) (vx s)) as [E|E].
    - assert (E' : vy d <> vy s).
      { intros E'. apply N. destruct s, d; simpl in *. congruence. }
      exists ((vy b - vy a) / (vy d - vy s)). split; [|field; lra].
      rewrite E in Z. apply (Rmult_eq_reg_r (vy d - vy s)); [|lra]. rewrite E.
      replace (vx s - vx s) with 0 in * by ring. lra.
    - exists ((vx b - vx a) / (vx d - vx s)). split; [field; lra|].
      apply (Rmult_eq_reg_r (vx d - vx s)); [|lra].
      replace ((vx b - vx a) / (vx d - vx s) * (vy d - vy s) * (vx d - vx s))
        with ((vx b - vx a) * (vy d - vy s)) by (field; lra). lra. }
  destruct Ec as (c & C1 & C2).
  assert (T0 : t <> 0) by (intros ->; apply Ns; now rewrite Ex', along_0).
  assert (T1 : t <> 1) by (intros ->; apply Nd; now rewrite Ex', along_1).
  assert (X1 : vx a + u * (c * (vx d - vx s)) = vx s + t * (vx d - vx s)).
  { rewrite <- C1. rewrite Ex in Ex'. unfold along in Ex'. now inversion Ex'. }
  assert (X2 : vy a + u * (c * (vy d - vy s)) = vy s + t * (vy d - vy s)).
  { rewrite <- C2. rewrite Ex in Ex'. unfold along in Ex'. now inversion Ex'. }
  assert (AL : forall v, along a b v = along s d (t - u * c + v * c)).
  { intros v. unfold along. f_equal; [rewrite C1|rewrite C2]; lra. }
  assert (Inj : forall v, (along s d v = s -> v = 0) /\ (along s d v = d -> v = 1)).
  { intros v. unfold along. destruct s as [sx sy], d as [dx dy]. simpl.
    destruct (Req_dec dx sx) as [E|E].
    - assert (E' : dy - sy <> 0) by (intros E'; apply N; f_equal; lra).
      split; intros H; inversion H; apply (Rmult_eq_reg_r (dy - sy)); auto; lra.
    - split; intros H; inversion H; apply (Rmult_eq_reg_r (dx - sx)); lra. }
  assert (Open : forall v, 0 < v < 1 ->
    on_segment s d (along s d v) /\ along s d v <> s /\ along s d v <> d).
  { intros v Hv. split; [exists v; split; [lra|reflexivity]|].
    split; intros H; apply (Inj v) in H; lra. }
  pose proof (AL 0) as A0. rewrite along_0 in A0. pose proof (AL 1) as A1. rewrite along_1 in A1.
  set (ta := t - u * c + 0 * c) in *. set (tb := t - u * c + 1 * c) in *.
  destruct (Rlt_dec 0 ta) as [La|La]; [destruct (Rlt_dec ta 1) as [La'|La']|].
  { left. rewrite A0. apply Open. lra. }
  - destruct (Rlt_dec tb 1) as [Lb|Lb]; [destruct (Rlt_dec 0 tb) as [Lb'|Lb']|].
    { right. left. rewrite A1. apply Open. lra. }
    + right. right. assert (Cn : c < 0) by (unfold ta, tb in *; lra).
      split.
      * exists (- ta / c). split.
        -- replace (- ta / c) with (ta / - c) by (field; lra). split.
           ++ apply Rmult_le_pos; [lra|]. apply Rlt_le, Rinv_0_lt_compat. lra.
           ++ apply (Rmult_le_reg_r (- c)); [lra|]. unfold Rdiv. rewrite Rmult_assoc, Rinv_l by lra.
              unfold ta, tb in *. lra.
        -- rewrite AL. replace (t - u * c + - ta / c * c) with 0 by (unfold ta; field; lra).
           now rewrite along_0.
      * exists ((1 - ta) / c). split.
        -- replace ((1 - ta) / c) with ((ta - 1) / - c) by (field; lra). split.
           ++ apply Rmult_le_pos; [lra|]. apply Rlt_le, Rinv_0_lt_compat. lra.
           ++ apply (Rmult_le_reg_r (- c)); [lra|]. unfold Rdiv. rewrite Rmult_assoc, Rinv_l by lra.
              unfold ta, tb in *. lra.
        -- rewrite AL. replace (t - u * c + (1 - ta) / c * c) with 1 by (unfold ta; field; lra).
           now rewrite along_1.
    + exfalso. unfold ta, tb in *. nra.
  - destruct (Rlt_dec 0 tb) as [Lb|Lb]; [destruct (Rlt_dec tb 1) as [Lb'|Lb']|].
    { right. left. rewrite A1. apply Open. lra. }
    + right. right. assert (Cp : 0 < c) by (unfold ta, tb in *; lra).
      split.
      * exists (- ta / c). split.
        -- split.
           ++ apply Rmult_le_pos; [lra|]. apply Rlt_le, Rinv_0_lt_compat. lra.
           ++ apply (Rmult_le_reg_r c); [lra|]. unfold Rdiv. rewrite Rmult_assoc, Rinv_l by lra.
              unfold ta, tb in *. lra.
        -- rewrite AL. replace (t - u * c + - ta / c * c) with 0 by (unfold ta; field; lra).
           now rewrite along_0.
      * exists ((1 - ta) / c). split.
        -- split.
           ++ apply Rmult_le_pos; [lra|]. apply Rlt_le, Rinv_0_lt_compat. lra.
           ++ apply (Rmult_le_reg_r c); [lra|]. unfold Rdiv. rewrite Rmult_assoc, Rinv_l by lra.
              unfold ta, tb in *. lra.
        -- rewrite AL. replace (t - u * c + (1 - ta) / c * c) with 1 by (unfold ta; field; lra).
           now rewrite along_1.
    + exfalso. unfold ta, tb in *. nra.
Qed.

(** ** The model on a drawing *)
Lemma xp_inj : forall p q, xp p = xp q -> p = q.
Proof. intros [px py] [qx qy] H. unfold xp in H. simpl in H. injection H. congruence. Qed.

Lemma olt_eps : forall r, olt (Some r : XO) ceps = true <-> r < eps32.
Proof. intros r. simpl. apply Rltb_true. Qed.

Section Model.
Context {T U : Type}.
Variable dT : T.
Local Notation graph := (PlanarGraph XO T U).

Lemma drawn_length : forall (g : graph) ps, drawn g ps -> length (nodes g) = length ps.
Proof. intros g ps H. apply (f_equal (@length _)) in H. now rewrite !map_length in H. Qed.

Lemma drawn_pos : forall (ns : list (Node XO T)) ps i, map position ns = map xp ps ->
  (i < length ps)%nat -> pos_at ns i = xp (pt ps i).
Proof.
  intros ns ps i H Hi. unfold pos_at, pt.
  assert (E : nth_error (map position ns) i = nth_error (map xp ps) i) by now rewrite H.
  rewrite !nth_error_map in E.
  rewrite (nth_error_nth' ps (P2 0 0) Hi) in E.
  destruct (nth_error ns i); cbn [option_map] in E; [injection E as E; exact E|discriminate].
Qed.

Lemma drawn_on : forall (ns : list (Node XO T)) ps k (e : Edge U), map position ns = map xp ps ->
  (k < length ps)%nat -> (src e < length ps)%nat -> (dst e < length ps)%nat ->
  (on_edge ns k e = true <-> edge_near ps e (pt ps k)).
Proof.
  intros ns ps k e H Hk Hs Hd. unfold on_edge. rewrite !(drawn_pos ns ps) by assumption.
  apply on_segment_test.
Qed.

Lemma drawn_closest : forall (g : graph) ps p j dd, drawn g ps ->
  find_closest_to (xp p) (gather_node_positions g) = (j, dd) ->
  (olt dd ceps = true -> (j < length ps)%nat /\ dist p (pt ps j) < eps32) /\
  (olt dd ceps = false -> forall k, (k < length ps)%nat -> eps32 <= dist p (pt ps k)).
Proof.
  intros g ps p j dd D H. unfold gather_node_positions in H. rewrite D in H.
  destruct (closest_near XO_laws _ _ _ _ H) as [H1 H2]. split; intros E.
  - destruct (H1 E) as (q & Hq & ->). rewrite nth_error_map in Hq.
    destruct (nth_error ps j) as [r|] eqn:Er; [|discriminate]. simpl in Hq. inv Hq.
    split; [apply nth_error_Some; congruence|].
    rewrite distance_xp in E. apply olt_eps in E. unfold pt. now rewrite (nth_error_nth _ _ _ Er).
  - intros k Hk. specialize (H2 E k (xp (pt ps k))). rewrite nth_error_map in H2.
    rewrite (nth_error_nth' ps (P2 0 0) Hk) in H2. specialize (H2 eq_refl).
    rewrite distance_xp in H2. destruct (Rle_dec eps32 (dist p (pt ps k))) as [L|L]; [exact L|].
    exfalso. assert (C : dist p (pt ps k) < eps32) by lra. apply olt_eps in C. congruence.
Qed.

Lemma split_noop : forall (on : Edge U -> bool) k es, (forall e, In e es -> on e = false) ->
  split_edges on k es = es.
Proof.
  intros on k es H. unfold split_edges. replace (filter on es) with (@nil (Edge U)).
  - rewrite app_nil_r. rewrite <- map_id. apply map_ext_in. intros e He. now rewrite H.
  - symmetry. induction es as [|e es IH]; [reflexivity|]. simpl. rewrite (H e) by now left.
    apply IH. intros e' He'. apply H. now right.
Qed.

(** Adding a node at a fresh point. *)
Lemma add_fresh : forall (g g' : graph) ps p pend d i ces, drawn g ps ->
  inv_drawn ps (edges g) (p :: pend) -> fresh ps (edges g) p ->
  add_node g (xp p) d = Ok (g', (i, ces)) ->
  drawn g' (ps ++ [p]) /\ inv_drawn (ps ++ [p]) (edges g') pend /\
  (forall x, covers (ps ++ [p]) (edges g') x <-> covers ps (edges g) x).
Proof.
  intros g g' ps p pend d i ces D I F H. apply add_node_ok in H.
  destruct H as [(dd & Fc & L & _)|(dd & j & Fc & L & -> & Hn & He & _)].
  - exfalso. destruct (drawn_closest _ _ _ _ _ D Fc) as [H _]. destruct (H L) as [Hj Hd].
    pose proof (proj1 F i Hj). lra.
  - assert (D' : drawn g' (ps ++ [p])).
    { unfold drawn. rewrite Hn, !map_app. now rewrite D. }
    assert (On : forall e, In e (edges g) ->
      (on_edge (nodes g') (length (nodes g)) e = true <-> edge_near ps e p)).
    { intros e Hin. destruct (proj1 I e Hin) as (_ & Hs & Hd).
      rewrite (drawn_on _ (ps ++ [p])); try (rewrite app_length; simpl; lia).
      - rewrite (drawn_length _ _ D), pt_new. unfold edge_near. now rewrite !pt_app.
      - exact D'.
      - rewrite (drawn_length _ _ D), app_length. simpl. lia. }
    rewrite He. rewrite (drawn_length _ _ D) in *. split; [exact D'|]. split.
    + now apply step_inv.
    + now apply (step_covers ps (edges g) pend p).
Qed.

(** The loop over the pending points. *)
Lemma split_points_planar : forall pend (g g' : graph) ps cn ce r, drawn g ps ->
  inv_drawn ps (edges g) pend ->
  split_at_points dT g (map xp pend) cn ce = Ok (g', r) ->
  exists qs, drawn g' (ps ++ qs) /\ inv_drawn (ps ++ qs) (edges g') [] /\
    (forall x, covers (ps ++ qs) (edges g') x <-> covers ps (edges g) x) /\ incl qs pend.
Proof.
  induction pend as [|p pend IH]; intros g g' ps cn ce r D I H; cbn [map split_at_points] in H.
  - inv H. exists []. rewrite app_nil_r. split; [exact D|]. split; [exact I|]. split; [reflexivity|easy].
  - destruct (find_closest_to (xp p) (gather_node_positions g)) as [j dd] eqn:Fc.
    destruct (drawn_closest _ _ _ _ _ D Fc) as [Hc Hf].
    pose proof (proj1 (proj2 (proj2 (proj2 (proj2 I)))) p (or_introl eq_refl)) as Lp.
    destruct (olt dd ceps) eqn:L.
    + destruct (Hc eq_refl) as [Hj Hd].
      destruct Lp as [(k & Hk & Ek)|F]; [|pose proof (proj1 F j Hj); lra].
      assert (k = j).
      { destruct (Nat.eq_dec k j) as [|N]; [assumption|]. exfalso.
        pose proof (proj1 (proj2 I) k j Hk Hj N) as A. rewrite <- Ek in A. lra. }
      subst k. apply bind_ok in H. destruct H as ([g1 ces] & H1 & H).
      apply split_at_node_ok in H1. destruct H1 as (Hn & H1).
      assert (E1 : edges g1 = edges g).
      { destruct H1 as [(_ & -> & _)|(_ & E & _)]; [reflexivity|]. rewrite E. apply split_noop.
        intros e Hin. destruct (on_edge (nodes g) j e) eqn:O; [|reflexivity]. exfalso.
        destruct (proj1 I e Hin) as (_ & Hs' & Hd').
        apply (drawn_on _ ps) in O; auto. exact (proj1 (proj2 (proj2 I)) j e Hj Hin O). }
      assert (D1 : drawn g1 ps) by (unfold drawn; now rewrite Hn).
      subst p. assert (I1 : inv_drawn ps (edges g1) pend) by (rewrite E1; eapply drop_node; eassumption).
      destruct (IH g1 g' ps _ _ _ D1 I1 H) as (qs & Q1 & Q2 & Q3 & Q4).
      exists qs. rewrite E1 in Q3. repeat (split; [assumption|]). intros x Hx. right. now apply Q4.
    + apply bind_ok in H. destruct H as ([g1 [ni ces]] & H1 & H).
      assert (F : fresh ps (edges g) p).
      { destruct Lp as [(k & Hk & Ek)|F]; [|exact F]. exfalso. specialize (Hf eq_refl k Hk).
        rewrite <- Ek, dist_self0 in Hf. pose proof eps32_pos. lra. }
      destruct (add_fresh _ _ _ _ _ _ _ _ D I F H1) as (D1 & I1 & C1).
      destruct (IH g1 g' (ps ++ [p]) _ _ _ D1 I1 H) as (qs & Q1 & Q2 & Q3 & Q4).
      exists (p :: qs). rewrite <- app_assoc in *. split; [exact Q1|]. split; [exact Q2|]. split.
      * intros x. now rewrite Q3.
      * intros x [<-|Hx]; [now left|right; now apply Q4].
Qed.

(** ** The intersections of the new edge *)
Lemma inters_list : forall (g : graph) ps id sd (es : list (Edge U)) idx is, drawn g ps ->
  nth_error (edges g) id = Some sd -> ends_ok ps (sd :: es) ->
  intersections_loop g id idx es = Ok is ->
  exists ys ss, is = map xp ys /\ NoDup ss /\ (forall i, In i ss -> (idx <= i)%nat) /\
    Forall2 (fun y i => exists e, nth_error es (i - idx) = Some e /\ i <> id /\
      cross (pt ps (src e)) (pt ps (dst e)) (pt ps (src sd)) (pt ps (dst sd)) <> 0 /\
      edge_on ps e y /\ edge_on ps sd y) ys ss /\
    (forall i e y, nth_error es i = Some e -> (idx + i)%nat <> id ->
      cross (pt ps (src e)) (pt ps (dst e)) (pt ps (src sd)) (pt ps (dst sd)) <> 0 ->
      edge_on ps e y -> edge_on ps sd y -> In (idx + i)%nat ss).
Proof.
  intros g ps id sd es. induction es as [|e es IH]; intros idx is D Hid V H; cbn [intersections_loop] in H.
  - inv H. exists [], []. repeat split; auto; try constructor; try easy.
    intros [|i] e y Hi; discriminate.
  - assert (V' : ends_ok ps (sd :: es)).
    { intros f [<-|Hf]; apply V; [now left|right; now right]. }
    destruct (negb (id =? idx)) eqn:Nid.
    + apply negb_true_iff, Nat.eqb_neq in Nid.
      apply bind_ok in H. destruct H as (n1 & H1 & H).
      apply bind_ok in H. destruct H as (n2 & H2 & H).
      apply bind_ok in H. destruct H as (ed & H0 & H).
      apply bind_ok in H. destruct H as (n3 & H3 & H).
      apply bind_ok in H. destruct H as (n4 & H4 & H).
      apply bind_ok in H. destruct H as (rest & Hr & H).
      apply index_ok in H0, H1, H2, H3, H4. assert (ed = sd) by congruence. subst ed.
      destruct (V e) as (_ & Le1 & Le2); [right; now left|].
      destruct (V sd) as (_ & Ls1 & Ls2); [now left|].
      pose proof (drawn_pos _ _ _ D Le1) as Q1. rewrite (pos_at_some _ _ _ H1) in Q1.
      pose proof (drawn_pos _ _ _ D Le2) as Q2. rewrite (pos_at_some _ _ _ H2) in Q2.
      pose proof (drawn_pos _ _ _ D Ls1) as Q3. rewrite (pos_at_some _ _ _ H3) in Q3.
      pose proof (drawn_pos _ _ _ D Ls2) as Q4. rewrite (pos_at_some _ _ _ H4) in Q4.
      rewrite Q1, Q2, Q3, Q4 in H.
      destruct (IH (S idx) rest D Hid V' Hr) as (ys & ss & -> & ND & Ge & F2 & Cp).
      destruct (calculate_line_segment_intersection _ _ _ _) as [q|] eqn:Ei.
      * inv H. apply segment_intersection_spec in Ei. destruct Ei as (p & -> & Z & O1 & O2).
        exists (p :: ys), (idx :: ss). split; [reflexivity|]. split.
        { constructor; [|exact ND]. intros C. apply Ge in C. lia. }
        split; [intros i [<-|Hi]; [lia|apply Ge in Hi; lia]|]. split.
        { constructor.
          - exists e. rewrite Nat.sub_diag. repeat split; auto.
          - clear - F2 Ge. revert Ge. induction F2 as [|y i ys ss (f & Hf & R) F2 IH]; intros Ge; constructor.
            + exists f. split; [|exact R]. assert (S idx <= i)%nat by (apply Ge; now left).
              replace (i - idx)%nat with (S (i - S idx)) by lia. exact Hf.
            + apply IH. intros j Hj. apply Ge. now right. }
        intros [|i] f y Hi N Zf O1' O2'.
        -- left. lia.
        -- right. replace (idx + S i)%nat with (S idx + i)%nat in * by lia. now apply (Cp i f y).
      * inv H. exists ys, ss. split; [reflexivity|]. split; [exact ND|].
        split; [intros i Hi; apply Ge in Hi; lia|]. split.
        { clear - F2 Ge. revert Ge. induction F2 as [|y i ys ss (f & Hf & R) F2 IH]; intros Ge; constructor.
          + exists f. split; [|exact R]. assert (S idx <= i)%nat by (apply Ge; now left).
            replace (i - idx)%nat with (S (i - S idx)) by lia. exact Hf.
          + apply IH. intros j Hj. apply Ge. now right. }
        intros [|i] f y Hi N Zf O1' O2'.
        -- exfalso. simpl in Hi. inv Hi.
           assert (X : calculate_line_segment_intersection (O := XO) (xp (pt ps (src f))) (xp (pt ps (dst f)))
             (xp (pt ps (src sd))) (xp (pt ps (dst sd))) = Some (xp y)).
           { apply segment_intersection_spec. exists y. repeat split; auto. }
           congruence.
        -- replace (idx + S i)%nat with (S idx + i)%nat in * by lia. now apply (Cp i f y).
    + apply negb_false_iff, Nat.eqb_eq in Nid.
      destruct (IH (S idx) is D Hid V' H) as (ys & ss & -> & ND & Ge & F2 & Cp).
      exists ys, ss. split; [reflexivity|]. split; [exact ND|].
      split; [intros i Hi; apply Ge in Hi; lia|]. split.
      { clear - F2 Ge. revert Ge. induction F2 as [|y i ys ss (f & Hf & R) F2 IH]; intros Ge; constructor.
        + exists f. split; [|exact R]. assert (S idx <= i)%nat by (apply Ge; now left).
          replace (i - idx)%nat with (S (i - S idx)) by lia. exact Hf.
        + apply IH. intros j Hj. apply Ge. now right. }
      intros [|i] f y Hi N Zf O1' O2'.
      * exfalso. lia.
      * replace (idx + S i)%nat with (S idx + i)%nat in * by lia. now apply (Cp i f y).
Qed.
End Model.

Section Model2.
Context {T U : Type}.
Variable dT : T.
Local Notation graph := (PlanarGraph XO T U).

Lemma all_xp : forall l : list (Vec2 XO), (forall q, In q l -> exists p, q = xp p) ->
  exists ps, l = map xp ps.
Proof.
  induction l as [|q l IH]; intros H; [now exists []|].
  destruct IH as [ps ->]; [intros; apply H; now right|].
  destruct (H q) as [p ->]; [now left|]. now exists (p :: ps).
Qed.

Lemma xclose : forall p q, close_to (xp p) (xp q) = false <-> eps32 < dist p q.
Proof.
  intros p q. unfold close_to. rewrite distance_xp. simpl. split.
  - intros H. destruct (Rle_dec (dist p q) eps32) as [L|L]; [|lra].
    assert (Rleb (dist p q) eps32 = true) by (unfold Rleb; now destruct Rle_dec). congruence.
  - intros H. unfold Rleb. destruct Rle_dec; [lra|reflexivity].
Qed.

(** The points kept by unique_points_among. *)
Lemma unique_xp : forall ys, exists pend, unique_points_among (O := XO) (map xp ys) = map xp pend /\
  (forall y, In y pend -> In y ys) /\
  ForallOrdPairs (fun x y => eps32 < dist x y) pend /\
  (forall a y, nth_error ys a = Some y ->
     (forall b z, b <> a -> nth_error ys b = Some z -> eps32 < dist y z) -> In y pend).
Proof.
  intros ys. destruct (unique_points_spec (map xp ys)) as (keep & Inc & K & M).
  set (us := unique_points_among (map xp ys)) in *.
  assert (G : forall a q, nth_error us a = Some q ->
    exists k y, nth_error keep a = Some k /\ nth_error ys k = Some y /\ q = xp y).
  { intros a q H. apply (map_nth_error Some) in H. rewrite M in H. rewrite nth_error_map in H.
    destruct (nth_error keep a) as [k|] eqn:E; [|discriminate]. cbn [option_map] in H.
    injection H as H. rewrite nth_error_map in H.
    destruct (nth_error ys k) as [y|] eqn:Ey; [|discriminate]. cbn [option_map] in H. injection H as H.
    exists k, y. auto. }
  destruct (all_xp us) as [pend E].
  { intros q Hq. apply In_nth_error in Hq. destruct Hq as [a Ha].
    destruct (G a q Ha) as (k & y & _ & _ & ->). now exists y. }
  assert (G' : forall a y, nth_error pend a = Some y ->
    exists k, nth_error keep a = Some k /\ nth_error ys k = Some y).
  { intros a y H. apply (map_nth_error xp) in H. rewrite <- E in H.
    destruct (G a _ H) as (k & z & H1 & H2 & H3). apply xp_inj in H3. subst. now exists k. }
  exists pend. split; [exact E|]. split; [|split].
  - intros y Hy. apply In_nth_error in Hy. destruct Hy as [a Ha].
    destruct (G' a y Ha) as (k & _ & Hk). eapply nth_error_In; eassumption.
  - apply pairs_nth; [intros x y; now rewrite dist_sym|].
    intros a b x y N Ha Hb. destruct (G' a x Ha) as (k & Hk & Hx). destruct (G' b y Hb) as (l & Hl & Hy).
    assert (Nk : l <> k).
    { intros ->. apply N. eapply nodup_nth_inj; [apply increasing_nodup, Inc| |]; eassumption. }
    assert (Ik : In k keep) by (eapply nth_error_In; eassumption). apply K in Ik. destruct Ik as [_ Is].
    apply xclose. apply (Is _ l _).
    + now rewrite nth_error_map, Hx.
    + now rewrite nth_error_map, Hy.
    + exact Nk.
  - intros a y Ha Far. assert (Ik : In a keep).
    { apply K. split; [rewrite map_length; apply nth_error_Some; congruence|].
      intros p b q Hp Hq Nb. rewrite nth_error_map in Hp, Hq. rewrite Ha in Hp.
      destruct (nth_error ys b) as [z|] eqn:Ez; [|discriminate].
      cbn [option_map] in Hp, Hq. injection Hp as <-. injection Hq as <-. apply xclose. eapply Far; eassumption. }
    apply In_nth_error in Ik. destruct Ik as [c Hc].
    assert (Hu : nth_error us c = Some (xp y)).
    { assert (H : nth_error (map Some us) c = nth_error (map (nth_error (map xp ys)) keep) c) by now rewrite M.
      rewrite !nth_error_map, Hc in H. cbn [option_map] in H. rewrite nth_error_map, Ha in H.
      destruct (nth_error us c); cbn [option_map] in H; [|discriminate]. injection H as H. now rewrite H. }
    rewrite E, nth_error_map in Hu. destruct (nth_error pend c) as [z|] eqn:Ez; [|discriminate].
    cbn [option_map] in Hu. injection Hu as Hu. assert (z = y) by (apply xp_inj; unfold xp; congruence).
    subst. eapply nth_error_In; eassumption.
Qed.

Lemma on_segment_line : forall a b x, on_segment a b x -> on_line a b x.
Proof. intros a b x (t & _ & ->). now exists t. Qed.

(** The pending points when an edge is drawn in general position. *)
Lemma add_edge_pending : forall (g g' : graph) ps s d u r, drawn g ps ->
  well_drawn ps (edges g) -> general_position ps (edges g) s d -> s <> d ->
  ~ adjacent g s d -> (s < length ps)%nat -> (d < length ps)%nat ->
  add_edge dT g s d u = Ok (g', r) ->
  exists pend ns es, drawn (with_edge g s d u) ps /\
    inv_drawn ps (edges (with_edge g s d u)) pend /\
    split_at_points dT (with_edge g s d u) (map xp pend) [] [] = Ok (g', (ns, es)) /\
    r = AddOk ns (match es with [] => [(length (edges g') - 1)%nat] | _ => es end) /\
    (forall y, In y pend -> on_segment (pt ps s) (pt ps d) y /\ covers ps (edges g) y).
Proof.
  intros g g' ps s d u r D W GP Nsd NA Hs Hd H.
  destruct (planar_inv _ _ W) as (V & A & C & M & _ & _).
  unfold add_edge in H. assert (HB : has_edge_between_nodes g s d = false).
  { destruct (has_edge_between_nodes g s d) eqn:E; [|reflexivity]. apply between_adjacent in E. contradiction. }
  rewrite HB in H. cbn [negb] in H. unfold get_vertex in H.
  destruct (nth_error (nodes g) s) eqn:Es.
  2:{ apply nth_error_None in Es. rewrite (drawn_length _ _ D) in Es. lia. }
  destruct (nth_error (nodes g) d) eqn:Ed.
  2:{ apply nth_error_None in Ed. rewrite (drawn_length _ _ D) in Ed. lia. }
  set (sd := MkEdge s d u DEFAULT_LABEL) in *.
  set (g1 := MkGraph (nodes g) (edges g ++ [sd])) in *.
  assert (Id : (edge_count g1 - 1 = length (edges g))%nat).
  { unfold edge_count, g1. simpl. rewrite app_length. simpl. lia. }
  rewrite Id in H.
  apply bind_ok in H. destruct H as ([g2 [cn ce]] & H & H'). inv H'.
  unfold split_edges_along_edge in H. apply bind_ok in H. destruct H as (is & Hi & H).
  assert (D1 : drawn g1 ps) by exact D.
  assert (V1 : ends_ok ps (edges g1)).
  { intros e He. apply in_app_or in He. destruct He as [He|[<-|[]]]; [now apply V|]. simpl. auto. }
  destruct (inters_list g1 ps (length (edges g)) sd (edges g1) 0 is D1) as (ys & ss & -> & ND & _ & F2 & Cp).
  { unfold g1. simpl. rewrite nth_error_app2, Nat.sub_diag by lia. reflexivity. }
  { intros e [<-|He]; apply V1; [apply in_or_app; right; now left|exact He]. }
  { exact Hi. }
  destruct (unique_xp ys) as (pend & Ep & Sub & Pw & Keep). rewrite Ep in H.
  (* what is known about a computed intersection *)
  assert (Y : forall a y, nth_error ys a = Some y -> exists i e, nth_error ss a = Some i /\
     nth_error (edges g) i = Some e /\ edge_on ps e y /\ edge_on ps sd y).
  { intros a y Ha. destruct (forall2_nth' _ _ _ _ _ F2 _ _ Ha) as (i & Hi' & e & He & Ni & _ & O1 & O2).
    exists i, e. split; [exact Hi'|]. rewrite Nat.sub_0_r in He. unfold g1 in He. cbn [edges] in He.
    assert (Li : (i < length (edges g ++ [sd]))%nat) by (apply nth_error_Some; congruence).
    rewrite app_length in Li. cbn [length] in Li. rewrite nth_error_app1 in He by lia. auto. }
  assert (I : inv_drawn ps (edges g1) pend).
  { split; [exact V1|]. split; [exact A|]. split; [|split; [|split]].
    - intros k e Hk He. apply in_app_or in He. destruct He as [He|[<-|[]]]; [now apply C|].
      intros Hn. unfold edge_near in Hn. cbn [sd src dst] in Hn.
      destruct (Nat.eq_dec k s) as [->|Ns].
      { destruct Hn as (_ & Hn & _). rewrite dist_self0 in Hn. pose proof eps32_pos. lra. }
      destruct (Nat.eq_dec k d) as [->|Nd].
      { destruct Hn as (_ & _ & Hn). rewrite dist_self0 in Hn. pose proof eps32_pos. lra. }
      exact (proj1 GP k Hk Ns Nd Hn).
    - unfold g1. cbn [edges]. apply pairs_app.
      + apply (pairs_nth _ (meet_sym ps pend)). intros i j e f N Hi' Hj x H1 H2.
        destruct (proj1 (pairs_nth _ (meet_sym ps []) (edges g)) M i j e f N Hi' Hj x H1 H2) as [?|[]]. now left.
      + constructor; constructor.
      + intros e f He [<-|[]] x H1 H2. cbn [sd src dst] in *.
        assert (Dx : forall p q : point, p = q \/ p <> q).
        { intros [px py] [qx qy]. destruct (Req_dec px qx) as [->|N1]; [|right; congruence].
          destruct (Req_dec py qy) as [->|N2]; [now left|right; congruence]. }
        destruct (Dx x (pt ps s)) as [->|Ns].
        { left. exists s. split; [exact (node_on_edge ps (edges g) s e V A C Hs He H1)|]. split; [now left|reflexivity]. }
        destruct (Dx x (pt ps d)) as [->|Nd].
        { left. exists d. split; [exact (node_on_edge ps (edges g) d e V A C Hd He H1)|]. split; [now right|reflexivity]. }
        right. unfold edge_on in H2. cbn [sd src dst] in H2.
        apply In_nth_error in He. destruct He as [i He]. pose proof (nth_error_In _ _ He) as Hin.
        destruct (V e Hin) as (Ne & Le1 & Le2).
        destruct (proj2 GP i e x He H1 H2 Ns Nd) as (Far & Oth).
        assert (Inner : forall k, (k < length ps)%nat -> on_segment (pt ps s) (pt ps d) (pt ps k) ->
           pt ps k <> pt ps s -> pt ps k <> pt ps d -> False).
        { intros k Hk Ok N1 N2. apply (proj1 GP k Hk).
          - intros ->. now apply N1.
          - intros ->. now apply N2.
          - apply on_near; [exact Ok|apply A; auto; intros ->; now apply N1|apply A; auto; intros ->; now apply N2]. }
        assert (Z : cross (pt ps (src e)) (pt ps (dst e)) (pt ps s) (pt ps d) <> 0).
        { intros Z. destruct (parallel_overlap _ _ _ _ x Z) as [(Q1 & Q2 & Q3)|[(Q1 & Q2 & Q3)|(Q1 & Q2)]]; auto.
          - intros Eq. pose proof (A s d Hs Hd Nsd) as B. rewrite Eq, dist_self0 in B. pose proof eps32_pos. lra.
          - exact (Inner _ Le1 Q1 Q2 Q3).
          - exact (Inner _ Le2 Q1 Q2 Q3).
          - apply NA. exists e. split; [exact Hin|].
            pose proof (node_on_edge ps (edges g) s e V A C Hs Hin Q1) as T1.
            pose proof (node_on_edge ps (edges g) d e V A C Hd Hin Q2) as T2.
            unfold touches, joins in *. destruct T1 as [T1|T1], T2 as [T2|T2]; auto; congruence. }
        assert (Li : (i < length (edges g))%nat) by (apply nth_error_Some; congruence).
        assert (Is : In (0 + i)%nat ss).
        { apply (Cp i e x); auto; [|cbn [Nat.add]; lia]. unfold g1. cbn [edges]. now rewrite nth_error_app1. }
        cbn [Nat.add] in Is. apply In_nth_error in Is. destruct Is as [a Ha].
        destruct (forall2_nth _ _ _ _ _ F2 _ _ Ha) as (y & Hy & e' & He' & Ni & Z' & O1 & O2).
        rewrite Nat.sub_0_r in He'. unfold g1 in He'. cbn [edges] in He'. rewrite nth_error_app1 in He' by exact Li.
        assert (e' = e) by congruence. subst e'.
        assert (x = y).
        { eapply segment_intersection_unique; [exact Z| | | |]; apply on_segment_line; assumption. }
        subst y. apply (Keep a x Hy). intros b z Nb Hz.
        destruct (Y b z Hz) as (j & f & Hj & Hf & O1' & O2').
        assert (Nj : j <> i) by (intros ->; apply Nb; eapply nodup_nth_inj; eassumption).
        exact (proj2 (Oth j f Nj Hf) z O1' O2').
    - intros y Hy. apply Sub in Hy. apply In_nth_error in Hy. destruct Hy as [a Ha].
      destruct (Y a y Ha) as (i & e & _ & He & O1 & O2).
      assert (Dx : forall p q : point, p = q \/ p <> q).
      { intros [px py] [qx qy]. destruct (Req_dec px qx) as [->|N1]; [|right; congruence].
        destruct (Req_dec py qy) as [->|N2]; [now left|right; congruence]. }
      destruct (Dx y (pt ps s)) as [->|Ns]; [left; now exists s|].
      destruct (Dx y (pt ps d)) as [->|Nd]; [left; now exists d|].
      right. destruct (proj2 GP i e y He O1 O2 Ns Nd) as (Far & Oth). split; [exact Far|].
      intros f Hf Nf. apply in_app_or in Hf. destruct Hf as [Hf|[<-|[]]]; [|exact O2].
      apply In_nth_error in Hf. destruct Hf as [j Hj].
      destruct (Nat.eq_dec j i) as [->|Nj]; [congruence|]. destruct (Oth j f Nj Hj) as [B _]. contradiction.
    - exact Pw. }
  exists pend, cn, ce. split; [exact D1|]. split; [exact I|]. split; [exact H|]. split; [reflexivity|].
  intros y Hy. apply Sub, In_nth_error in Hy. destruct Hy as [a Ha].
  destruct (Y a y Ha) as (i & e & _ & He & O1 & O2).
  split; [exact O2|]. exists e. split; [eapply nth_error_In; eassumption|exact O1].
Qed.

(** Drawing an edge in general position. *)
Theorem add_edge_planar : forall (g g' : graph) ps s d u r, drawn g ps ->
  well_drawn ps (edges g) -> general_position ps (edges g) s d -> s <> d ->
  ~ adjacent g s d -> (s < length ps)%nat -> (d < length ps)%nat ->
  add_edge dT g s d u = Ok (g', r) ->
  exists qs, drawn g' (ps ++ qs) /\ well_drawn (ps ++ qs) (edges g') /\
    (forall x, covers (ps ++ qs) (edges g') x <->
       covers ps (edges g) x \/ on_segment (pt ps s) (pt ps d) x) /\
    (forall q, In q qs -> q <> pt ps s /\ q <> pt ps d /\
       on_segment (pt ps s) (pt ps d) q /\ covers ps (edges g) q).
Proof.
  intros g g' ps s d u r D W GP Nsd NA Hs Hd H.
  destruct (add_edge_pending g g' ps s d u r D W GP Nsd NA Hs Hd H) as (pend & ns & es & D1 & I & H1 & _ & Y).
  destruct (split_points_planar dT pend _ g' ps _ _ _ D1 I H1) as (qs & Q1 & Q2 & Q3 & Q4).
  exists qs. split; [exact Q1|]. split; [now apply inv_planar|]. split.
  - intros x. rewrite Q3. unfold with_edge, covers. cbn [edges]. split.
    + intros (e & He & Oe). apply in_app_or in He. destruct He as [He|[<-|[]]]; [left; eauto|right; exact Oe].
    + intros [(e & He & Oe)|O].
      * exists e. split; [apply in_or_app; now left|exact Oe].
      * eexists. split; [apply in_or_app; right; now left|exact O].
  - intros q Hq. assert (Hp : In q pend) by now apply Q4.
    assert (Nk : forall k, (k < length ps)%nat -> q <> pt ps k).
    { intros k Hk E. apply In_nth_error in Hq. destruct Hq as [a Ha].
      assert (La : (a < length qs)%nat) by (apply nth_error_Some; congruence).
      assert (L1 : (k < length (ps ++ qs))%nat) by (rewrite app_length; lia).
      assert (L2 : (length ps + a < length (ps ++ qs))%nat) by (rewrite app_length; lia).
      pose proof (proj1 (proj2 Q2) k (length ps + a)%nat L1 L2 ltac:(lia)) as B.
      rewrite pt_app in B by exact Hk. unfold pt at 2 in B. rewrite app_nth2 in B by lia.
      replace (length ps + a - length ps)%nat with a in B by lia.
      rewrite (nth_error_nth _ _ _ Ha), E, dist_self0 in B. pose proof eps32_pos. lra. }
    split; [now apply Nk|]. split; [now apply Nk|].
    exact (Y q Hp).
Qed.

(** Adding a node. *)
Theorem add_node_planar : forall (g g' : graph) ps p d i ces, drawn g ps ->
  well_drawn ps (edges g) -> good_place ps (edges g) p ->
  add_node g (xp p) d = Ok (g', (i, ces)) ->
  exists qs, drawn g' (ps ++ qs) /\ well_drawn (ps ++ qs) (edges g') /\
    (forall x, covers (ps ++ qs) (edges g') x <-> covers ps (edges g) x) /\
    (i < length (ps ++ qs))%nat /\ dist p (pt (ps ++ qs) i) < eps32.
Proof.
  intros g g' ps p d i ces D W G H.
  destruct G as [(k & Hk & Hd)|F].
  - exists []. rewrite app_nil_r. apply add_node_ok in H.
    destruct H as [(dd & Fc & L & -> & _)|(dd & j & Fc & L & _)];
      destruct (drawn_closest _ _ _ _ _ D Fc) as [H1 H2].
    + split; [exact D|]. split; [exact W|]. split; [reflexivity|]. exact (H1 L).
    + exfalso. pose proof (H2 L k Hk). lra.
  - exists [p]. assert (I : inv_drawn ps (edges g) [p]).
    { destruct (planar_inv _ _ W) as (V & A & C & M & _ & _). repeat (split; [assumption|]). split; [|split].
      - apply (pairs_nth _ (meet_sym ps [p])). intros a b e f N Ha Hb x H1 H2.
        destruct (proj1 (pairs_nth _ (meet_sym ps []) (edges g)) M a b e f N Ha Hb x H1 H2) as [?|[]]. now left.
      - intros y [<-|[]]. now right.
      - constructor; constructor. }
    destruct (add_fresh _ _ _ _ _ _ _ _ D I F H) as (D' & I' & C').
    split; [exact D'|]. split; [now apply inv_planar|]. split; [exact C'|].
    apply add_node_ok in H. destruct H as [(dd & Fc & L & _)|(dd & j & Fc & L & -> & _)].
    + exfalso. destruct (drawn_closest _ _ _ _ _ D Fc) as [H1 _]. destruct (H1 L) as [Hi Hd].
      pose proof (proj1 F i Hi). lra.
    + rewrite (drawn_length _ _ D), app_length, pt_new, dist_self0. pose proof eps32_pos. simpl. split; [lia|lra].
Qed.

(** ** Removals *)
Lemma pairs_sub : forall A (P : A -> A -> Prop) l l', ForallOrdPairs P (l ++ l') -> ForallOrdPairs P l'.
Proof. intros A P l l'. induction l as [|a l IH]; simpl; intros H; [exact H|]. inv H. auto. Qed.

Lemma filter_perm : forall A (f : A -> bool) l,
  Permutation (filter (fun x => negb (f x)) l ++ filter f l) l.
Proof.
  intros A f l. induction l as [|a l IH]; simpl; [constructor|]. destruct (f a); simpl.
  - eapply Permutation_trans; [apply Permutation_sym, Permutation_middle|]. now constructor.
  - now constructor.
Qed.

Lemma without_perm : forall (es : list (Edge U)) i e, nth_error es i = Some e ->
  Permutation ([e] ++ without i es) es.
Proof.
  intros es. unfold without. induction es as [|a es IH]; intros [|i] e H; try discriminate.
  - simpl in H. inv H. simpl. reflexivity.
  - simpl in H. cbn [firstn skipn app]. eapply Permutation_trans; [apply perm_swap|].
    apply perm_skip. exact (IH i e H).
Qed.

Lemma drawn_nth : forall (g : graph) ps i n, drawn g ps -> nth_error (nodes g) i = Some n ->
  position n = xp (pt ps i) /\ (i < length ps)%nat.
Proof.
  intros g ps i n D H. assert (Hi : (i < length ps)%nat).
  { rewrite <- (drawn_length _ _ D). apply nth_error_Some. congruence. }
  split; [|exact Hi]. rewrite <- (pos_at_some _ _ _ H). now apply drawn_pos.
Qed.

Lemma restricts_planar : forall keep (g g' : graph) gone sv rest ps, drawn g ps ->
  well_drawn ps (edges g) -> Permutation (rest ++ sv) (edges g) ->
  restricts keep g g' gone sv ->
  exists ps', drawn g' ps' /\ well_drawn ps' (edges g') /\
    (forall x, covers ps' (edges g') x <-> covers ps sv x) /\ incl ps' ps.
Proof.
  intros keep g g' gone sv rest ps D W Pm (Inc & K & Fn & Fe).
  destruct (planar_inv _ _ W) as (V & A & C & M & _ & _).
  set (ps' := map (pt ps) keep). exists ps'.
  assert (Lk : forall i, In i keep -> (i < length ps)%nat).
  { intros i Hi. apply K in Hi. rewrite <- (drawn_length _ _ D). tauto. }
  assert (Ptk : forall a i, nth_error keep a = Some i -> pt ps' a = pt ps i).
  { intros a i H. unfold ps'. unfold pt at 1. apply nth_error_nth. now rewrite nth_error_map, H. }
  assert (Len : length ps' = length keep) by (unfold ps'; apply map_length).
  assert (Kn : forall a, (a < length ps')%nat -> exists i, nth_error keep a = Some i /\ (i < length ps)%nat).
  { intros a Ha. rewrite Len in Ha. destruct (nth_error keep a) as [i|] eqn:E.
    - exists i. split; [reflexivity|]. apply Lk. eapply nth_error_In; eassumption.
    - apply nth_error_None in E. lia. }
  assert (Sv : forall e, In e sv -> In e (edges g)).
  { intros e He. eapply Permutation_in; [exact Pm|]. apply in_or_app. now right. }
  assert (Es : forall a e', nth_error (edges g') a = Some e' -> exists e, nth_error sv a = Some e /\
    same_edge_via keep e' e).
  { intros a e' H. exact (forall2_nth' _ _ _ _ _ Fe _ _ H). }
  assert (OnE : forall (e' e : Edge U) x, same_edge_via keep e' e -> (edge_on ps' e' x <-> edge_on ps e x)).
  { intros e' e x (H1 & H2 & _). unfold edge_on. now rewrite (Ptk _ _ H1), (Ptk _ _ H2). }
  assert (D' : drawn g' ps').
  { unfold drawn, ps'. clear - Fn D. induction Fn as [|n i l l' Hn F IH]; [reflexivity|].
    cbn [map]. rewrite IH. f_equal. now apply (drawn_nth g). }
  split; [exact D'|]. split; [|split].
  - apply inv_planar. split; [|split; [|split; [|split; [|split; [easy|constructor]]]]].
    + intros e' H. apply In_nth_error in H. destruct H as [a Ha]. destruct (Es a e' Ha) as (e & He & S1 & S2 & _).
      apply nth_error_In in He. destruct (V e (Sv e He)) as (N & _). rewrite Len.
      split; [|split; apply nth_error_Some; congruence]. intros E. rewrite E in S1. congruence.
    + intros i j Hi Hj N. destruct (Kn i Hi) as (a & Ha & La). destruct (Kn j Hj) as (b & Hb & Lb).
      rewrite (Ptk _ _ Ha), (Ptk _ _ Hb). apply A; auto. intros ->. apply N.
      eapply nodup_nth_inj; [apply increasing_nodup, Inc| |]; eassumption.
    + intros k e' Hk H Hn. destruct (Kn k Hk) as (a & Ha & La).
      apply In_nth_error in H. destruct H as [b Hb]. destruct (Es b e' Hb) as (e & He & S1 & S2 & _).
      apply nth_error_In in He. apply (C a e La (Sv e He)). unfold edge_near in *.
      now rewrite (Ptk _ _ S1), (Ptk _ _ S2), (Ptk _ _ Ha) in Hn.
    + assert (Ms : ForallOrdPairs (meet ps []) sv).
      { apply (pairs_sub _ _ rest). apply (pairs_perm _ (meet_sym ps []) (edges g)); [|exact M].
        now apply Permutation_sym. }
      apply (pairs_nth _ (meet_sym ps' [])). intros i j e' f' N Hi Hj x H1 H2. left.
      destruct (Es i e' Hi) as (e & He & Se). destruct (Es j f' Hj) as (f & Hf & Sf).
      apply (OnE e' e) in H1; [|exact Se]. apply (OnE f' f) in H2; [|exact Sf].
      destruct (proj1 (pairs_nth _ (meet_sym ps []) sv) Ms i j e f N He Hf x H1 H2) as [(k & Te & Tf & Ex)|[]].
      assert (Back : forall e' e : Edge U, same_edge_via keep e' e -> touches k e ->
        exists a, nth_error keep a = Some k /\ touches a e').
      { intros e1 e2 (S1 & S2 & _) [E|E]; [exists (src e1)|exists (dst e1)]; unfold touches; split; auto; congruence. }
      destruct (Back e' e Se Te) as (a & Ha & Ta). destruct (Back f' f Sf Tf) as (b & Hb & Tb).
      assert (a = b) by (eapply nodup_nth_inj; [apply increasing_nodup, Inc| |]; eassumption). subst b.
      exists a. split; [exact Ta|]. split; [exact Tb|]. now rewrite (Ptk _ _ Ha).
  - intros x. split; intros (e & He & O); apply In_nth_error in He; destruct He as [a Ha].
    + destruct (Es a e Ha) as (e0 & He0 & S). exists e0. split; [eapply nth_error_In; eassumption|].
      now apply (OnE e e0).
    + destruct (forall2_nth _ _ _ _ _ Fe _ _ Ha) as (e' & He' & S).
      exists e'. split; [eapply nth_error_In; eassumption|]. now apply (OnE e' e).
  - intros p Hp. unfold ps' in Hp. apply in_map_iff in Hp. destruct Hp as (i & <- & Hi).
    unfold pt. apply nth_In. now apply Lk.
Qed.

Lemma well_drawn_valid : forall (g : graph) ps, drawn g ps -> well_drawn ps (edges g) -> valid g.
Proof.
  intros g ps D (V & _) e He. rewrite (drawn_length _ _ D). destruct (V e He). tauto.
Qed.

Lemma well_drawn_no_loops : forall (g : graph) ps, well_drawn ps (edges g) -> no_loops g.
Proof. intros g ps (V & _) e He. now apply V. Qed.

Theorem remove_node_planar : forall (g g' : graph) ps id r, drawn g ps ->
  well_drawn ps (edges g) -> remove_node g id = Ok (g', r) ->
  exists ps', drawn g' ps' /\ well_drawn ps' (edges g') /\ incl ps' ps /\
    (forall x, covers ps' (edges g') x <->
       exists e, In e (edges g) /\ ~ touches id e /\ edge_on ps e x).
Proof.
  intros g g' ps id r D W H. pose proof (well_drawn_valid g ps D W) as Hv.
  destruct (lt_dec id (length (nodes g))) as [Hi|Hi].
  - assert (NL : ~ lonely_loop g id) by (apply no_loops_not_lonely; eapply well_drawn_no_loops; eassumption).
    pose proof (remove_node_restricts g g' id r Hv Hi NL H) as R.
    destruct (restricts_planar _ _ _ _ _ (filter (fun e => negb (negb (touchesb id e))) (edges g)) ps D W (filter_perm _ _ _) R)
      as (ps' & D' & W' & C' & I').
    exists ps'. split; [exact D'|]. split; [exact W'|]. split; [exact I'|].
    intros x. rewrite C'. unfold covers. split; intros (e & He).
    + exists e. rewrite filter_In, negb_true_iff, touchesb_false in He. tauto.
    + exists e. rewrite filter_In, negb_true_iff, touchesb_false. tauto.
  - rewrite remove_node_missing in H by lia. inv H. exists ps. split; [exact D|]. split; [exact W|].
    split; [apply incl_refl|]. intros x. unfold covers. split; intros (e & He).
    + exists e. split; [tauto|]. split; [|tauto]. intros [E|E]; destruct (Hv e (proj1 He)); lia.
    + exists e. tauto.
Qed.

Theorem remove_edge_planar : forall (g g' : graph) ps id r, drawn g ps ->
  well_drawn ps (edges g) -> remove_edge g id = Ok (g', r) ->
  exists ps', drawn g' ps' /\ well_drawn ps' (edges g') /\ incl ps' ps /\
    (forall x, covers ps' (edges g') x <->
       exists i e, i <> id /\ nth_error (edges g) i = Some e /\ edge_on ps e x).
Proof.
  intros g g' ps id r D W H. pose proof (well_drawn_valid g ps D W) as Hv.
  destruct (nth_error (edges g) id) as [e0|] eqn:E.
  - assert (NL : ~ lonely_loop g (src e0)) by (apply no_loops_not_lonely; eapply well_drawn_no_loops; eassumption).
    destruct (remove_edge_restricts g g' id e0 r Hv E NL H) as (keep & sv & Pm & R).
    assert (Pm' : Permutation ([e0] ++ sv) (edges g)).
    { eapply Permutation_trans; [|apply without_perm; exact E]. now apply Permutation_app_head. }
    destruct (restricts_planar _ _ _ _ _ _ ps D W Pm' R) as (ps' & D' & W' & C' & I').
    exists ps'. split; [exact D'|]. split; [exact W'|]. split; [exact I'|].
    assert (Wi : forall e, In e (without id (edges g)) <->
      exists i, i <> id /\ nth_error (edges g) i = Some e).
    { clear - E. unfold without. intros e. revert id E. generalize (edges g). intros es.
      induction es as [|a es IH]; intros [|id] E; try discriminate; cbn [firstn skipn app].
      - split.
        + intros He. apply In_nth_error in He. destruct He as [j Hj]. exists (S j). auto.
        + intros ([|i] & N & Hi); [congruence|]. simpl in Hi. eapply nth_error_In; eassumption.
      - simpl in E. specialize (IH id E). split.
        + intros [->|He]; [exists 0%nat; auto|]. apply IH in He. destruct He as (i & N & Hi). exists (S i). auto.
        + intros ([|i] & N & Hi); simpl in Hi; [inv Hi; now left|]. right. apply IH. exists i. auto. }
    intros x. rewrite C'. unfold covers. split.
    + intros (e & He & O). eapply Permutation_in in He; [|exact Pm]. apply Wi in He.
      destruct He as (i & N & Hi). eauto.
    + intros (i & e & N & Hi & O). exists e. split; [|exact O]. eapply Permutation_in; [apply Permutation_sym, Pm|].
      apply Wi. eauto.
  - apply nth_error_None in E. rewrite remove_edge_missing in H by exact E. inv H. exists ps.
    split; [exact D|]. split; [exact W|]. split; [apply incl_refl|].
    intros x. unfold covers. split.
    + intros (e & He & O). apply In_nth_error in He. destruct He as [i Hi]. exists i, e.
      split; [|auto]. intros ->. assert (id < length (edges g'))%nat by (apply nth_error_Some; congruence). lia.
    + intros (i & e & _ & Hi & O). exists e. split; [eapply nth_error_In; eassumption|exact O].
Qed.

(** ** Histories *)
Lemma drawn_fun : forall (g : graph) ps ps', drawn g ps -> drawn g ps' -> ps = ps'.
Proof.
  intros g ps ps' H H'. unfold drawn in *. rewrite H in H'. clear H. revert ps' H'.
  induction ps as [|p ps IH]; intros [|p' ps'] H; try discriminate; [reflexivity|].
  cbn [map] in H. injection H as H1 H2 H3. f_equal; [|now apply IH].
  apply xp_inj. unfold xp. congruence.
Qed.

Lemma step_planar : forall (g g' : graph) o ps, drawn g ps -> well_drawn ps (edges g) ->
  tidy_op g o -> step dT g o = Ok g' ->
  exists ps', drawn g' ps' /\ well_drawn ps' (edges g').
Proof.
  intros g g' o ps D W T1 H.
  destruct o as [pos dd|s d u|i|i]; cbn [step] in H; apply bind_ok in H; destruct H as ([g1 r] & H & E); inv E.
  - destruct T1 as (ps0 & p & D0 & -> & G). rewrite (drawn_fun _ _ _ D0 D) in G.
    destruct r as [i ces]. destruct (add_node_planar _ _ _ _ _ _ _ D W G H) as (qs & D' & W' & _). eauto.
  - destruct T1 as (N & T1).
    pose proof H as H0. apply add_edge_ok in H0.
    destruct H0 as [(_ & -> & _)|[(_ & _ & -> & _)|(NA & Hs & Hd & _)]]; [eauto|eauto|].
    destruct T1 as [A|[B|(ps0 & D0 & G)]]; [contradiction|tauto|].
    rewrite (drawn_fun _ _ _ D0 D) in G. rewrite (drawn_length _ _ D) in Hs, Hd.
    destruct (add_edge_planar _ _ _ _ _ _ _ D W G N NA Hs Hd H) as (qs & D' & W' & _). eauto.
  - destruct (remove_node_planar _ _ _ _ _ D W H) as (ps' & D' & W' & _). eauto.
  - destruct (remove_edge_planar _ _ _ _ _ D W H) as (ps' & D' & W' & _). eauto.
Qed.

Theorem tidy_planar : forall os (g g' : graph) ps, drawn g ps -> well_drawn ps (edges g) ->
  tidy dT g os -> run dT g os = Ok g' ->
  exists ps', drawn g' ps' /\ well_drawn ps' (edges g').
Proof.
  induction os as [|o os IH]; intros g g' ps D W T1 H.
  - inv H. eauto.
  - cbn [run] in H. apply bind_ok in H. destruct H as (g1 & H1 & H). destruct T1 as (T1 & T2).
    destruct (step_planar _ _ _ _ D W T1 H1) as (ps' & D' & W'). eapply IH; eauto.
Qed.

Lemma empty_drawn : drawn (@graph_new XO T U) [] /\ well_drawn [] (edges (@graph_new XO T U)).
Proof.
  split; [reflexivity|]. split; [intros e []|]. split; [intros i j H; inversion H|].
  split; [intros k e H; inversion H|]. split; [intros k e H; inversion H|].
  intros [|i] j ei ej x _ H; discriminate.
Qed.

(** Planar drawings have no parallel edges. *)
Lemma planar_no_parallel : forall (g : graph) ps, well_drawn ps (edges g) -> no_parallel g.
Proof.
  intros g ps (V & A & _ & _ & M) i j ei ej N Hi Hj J.
  destruct (V ei (nth_error_In _ _ Hi)) as (Ne & Ls & Ld).
  set (m := along (pt ps (src ei)) (pt ps (dst ei)) (/2)).
  assert (O1 : on_segment (pt ps (src ei)) (pt ps (dst ei)) m) by (exists (/2); split; [lra|reflexivity]).
  assert (O2 : on_segment (pt ps (src ej)) (pt ps (dst ej)) m).
  { destruct J as [[-> ->]|[-> ->]]; [exact O1|now apply on_sym]. }
  destruct (M i j ei ej m N Hi Hj O1 O2) as (k & Tk & _ & Em).
  pose proof (A _ _ Ls Ld Ne) as B. pose proof eps32_pos as E0.
  assert (Dm : dist (pt ps (src ei)) m = / 2 * dist (pt ps (src ei)) (pt ps (dst ei))).
  { apply sq_eq; [apply dist_nonneg|pose proof (dist_nonneg (pt ps (src ei)) (pt ps (dst ei))); lra|].
    rewrite dist_sq. replace (/ 2 * dist (pt ps (src ei)) (pt ps (dst ei)) * (/ 2 * dist (pt ps (src ei)) (pt ps (dst ei))))
      with (/4 * (dist (pt ps (src ei)) (pt ps (dst ei)) * dist (pt ps (src ei)) (pt ps (dst ei)))) by field.
    rewrite dist_sq. unfold m, along; simpl. field. }
  pose proof (on_segment_dist _ _ _ O1) as Sum.
  destruct Tk as [<-|<-]; rewrite Em in *.
  - rewrite dist_self0 in Dm. lra.
  - rewrite dist_self0 in Sum. lra.
Qed.
End Model2.
