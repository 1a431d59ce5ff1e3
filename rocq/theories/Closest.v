(** * find_closest_to and unique_points_among over any lawful scalars (f32 included). *)
From Coq Require Import List Arith Bool Lia.
From Verif Require Import Scalar Utils Laws ListSpec.
Import ListNotations.

Section Closest.
Context {O : Ops} (L : Laws O).
Local Notation pt := (Vec2 O).

Lemma lt_not_le : forall x y : O, olt x y = true -> ole y x = false.
Proof.
  intros x y H. destruct (ole y x) eqn:E; [|reflexivity].
  apply (le_not_lt O L) in E. congruence.
Qed.

(** [closest_loop] keeps the first strict minimum. *)
Lemma closest_loop_spec : forall (ds : list O) idx mi md i d,
  num md -> closest_loop ds idx mi md = (i, d) ->
  (i = mi /\ d = md /\ forall k x, nth_error ds k = Some x -> olt x md = false) \/
  (exists k, i = idx + k /\ nth_error ds k = Some d /\ olt d md = true /\
     (forall j x, nth_error ds j = Some x -> olt x d = false) /\
     (forall j x, j < k -> nth_error ds j = Some x -> ole x d = false)).
Proof.
  intros ds. induction ds as [|a ds IH]; intros idx mi md i d Hn H; simpl in H.
  - inversion H; subst. left. repeat split. intros [|k] x Hx; discriminate.
  - destruct (olt a md) eqn:E.
    + destruct (lt_num O L _ _ E) as [Na _].
      apply IH in H; [|exact Na].
      destruct H as [(-> & -> & Hall)|(k & -> & Hk & Hlt & Hmin & Hfirst)]; right.
      * exists 0. rewrite Nat.add_0_r. repeat split; auto.
        -- intros [|j] x Hx; simpl in Hx; [inversion Hx; apply (lt_irrefl O L)|eauto].
        -- intros j x Hj. lia.
      * exists (S k). split; [lia|]. split; [exact Hk|].
        split; [eapply (lt_trans O L); eassumption|]. split.
        -- intros [|j] x Hx; simpl in Hx; [inversion Hx; subst|eauto].
           now apply (lt_asym L).
        -- intros [|j] x Hj Hx; simpl in Hx.
           ++ inversion Hx; subst. now apply lt_not_le.
           ++ apply (Hfirst j); [lia|assumption].
    + apply IH in H; [|exact Hn].
      destruct H as [(-> & -> & Hall)|(k & -> & Hk & Hlt & Hmin & Hfirst)].
      * left. repeat split. intros [|j] x Hx; simpl in Hx; [inversion Hx; congruence|eauto].
      * right. exists (S k). split; [lia|]. split; [exact Hk|]. split; [exact Hlt|].
        assert (A : ole a d = false).
        { destruct (ole a d) eqn:E'; [|reflexivity].
          rewrite (le_lt_trans O L _ _ _ E' Hlt) in E. discriminate. }
        split.
        -- intros [|j] x Hx; simpl in Hx; [inversion Hx; subst|eauto].
           destruct (olt x d) eqn:E'; [|reflexivity].
           apply (lt_le O L) in E'. congruence.
        -- intros [|j] x Hj Hx; simpl in Hx; [inversion Hx; now subst|].
           apply (Hfirst j); [lia|assumption].
Qed.

Lemma find_closest_spec : forall (t : pt) ps i d,
  find_closest_to t ps = (i, d) ->
  (i = 0 /\ d = cmax /\
     forall j q, nth_error ps j = Some q -> olt (distance t q) cmax = false) \/
  (exists p, nth_error ps i = Some p /\ d = distance t p /\ olt d cmax = true /\
     forall j q, nth_error ps j = Some q ->
       olt (distance t q) d = false /\ (j < i -> ole (distance t q) d = false)).
Proof.
  intros t ps i d H. unfold find_closest_to in H.
  apply closest_loop_spec in H; [|apply (max_num L)].
  destruct H as [(-> & -> & Hall)|(k & -> & Hk & Hlt & Hmin & Hfirst)].
  - left. repeat split. intros j q Hq. apply (Hall j).
    rewrite nth_error_map, Hq. reflexivity.
  - right. simpl. rewrite nth_error_map in Hk.
    destruct (nth_error ps k) as [p|] eqn:Ep; [|discriminate]. inversion Hk; subst.
    exists p. repeat split; auto.
    + apply (Hmin j). rewrite nth_error_map, H. reflexivity.
    + intros Hj. apply (Hfirst j); [exact Hj|]. rewrite nth_error_map, H. reflexivity.
Qed.

Lemma max_not_lt_eps : olt (@cmax O) ceps = false.
Proof. apply (lt_asym L), (eps_lt_max O L). Qed.

(** The closest distance is below epsilon iff some distance is. *)
Lemma closest_near : forall (t : pt) ps i d,
  find_closest_to t ps = (i, d) ->
  (olt d ceps = true -> exists p, nth_error ps i = Some p /\ d = distance t p) /\
  (olt d ceps = false -> forall j q, nth_error ps j = Some q -> olt (distance t q) ceps = false).
Proof.
  intros t ps i d H. apply find_closest_spec in H.
  destruct H as [(-> & -> & Hall)|(p & Hp & -> & Hlt & Hmin)]; split.
  - rewrite max_not_lt_eps. discriminate.
  - intros _ j q Hq. destruct (olt (distance t q) ceps) eqn:E; [|reflexivity].
    rewrite <- (Hall j q Hq). symmetry. eapply (lt_trans O L); [exact E|].
    apply (eps_lt_max O L).
  - intros _. exists p. easy.
  - intros He j q Hq. destruct (olt (distance t q) ceps) eqn:E; [|reflexivity].
    destruct (lt_num O L _ _ Hlt) as [N _].
    pose proof (not_lt_le O L _ _ N (eps_num O L) He) as Hle.
    pose proof (lt_le_trans O L _ _ _ E Hle) as C.
    destruct (Hmin j q Hq) as [Hm _]. congruence.
Qed.

(** ** unique_points_among *)
Lemma has_close_other_spec : forall (a : pt) i ps j,
  has_close_other a i j ps = true <->
  exists k q, nth_error ps k = Some q /\ j + k <> i /\ close_to a q = true.
Proof.
  intros a i ps. induction ps as [|b ps IH]; intros j; simpl.
  - split; [discriminate|]. intros ([|k] & q & H & _); discriminate.
  - destruct (negb (i =? j) && close_to a b) eqn:E.
    + split; [intros _|easy]. apply andb_true_iff in E. destruct E as [E1 E2].
      apply negb_true_iff, Nat.eqb_neq in E1. exists 0, b. repeat split; auto. lia.
    + rewrite IH. split.
      * intros (k & q & H & Hne & Hc). exists (S k), q. repeat split; auto. lia.
      * intros ([|k] & q & H & Hne & Hc); simpl in H.
        -- inversion H; subst. rewrite Hc, andb_true_r in E.
           apply negb_false_iff, Nat.eqb_eq in E. lia.
        -- exists k, q. repeat split; auto. lia.
Qed.

(** The kept slots, in order. *)
Definition isolated (ps : list pt) (i : nat) : Prop :=
  forall p k q, nth_error ps i = Some p -> nth_error ps k = Some q -> k <> i ->
    close_to p q = false.

Lemma unique_loop_spec : forall (all rest : list pt) i,
  (forall k p, nth_error rest k = Some p -> nth_error all (i + k) = Some p) ->
  exists keep,
    map Some (unique_loop all rest i) = map (nth_error all) keep /\
    (forall k, In k keep <-> i <= k < i + length rest /\ isolated all k) /\
    (exists ks, keep = filter ks (seq i (length rest))).
Proof.
  intros all rest. induction rest as [|a rest IH]; intros i Hsub; simpl.
  - exists []. split; [reflexivity|]. split; [|now exists (fun _ => true)].
    intros k. split; [easy|]. intros [H _]. simpl in H. lia.
  - destruct (IH (S i)) as (keep & Hmap & Hin & ks & Hks).
    { intros k p Hk. replace (S i + k) with (i + S k) by lia. now apply Hsub. }
    assert (Ha : nth_error all i = Some a).
    { replace i with (i + 0) by lia. now apply Hsub. }
    destruct (has_close_other a i 0 all) eqn:E; simpl.
    + exists keep. split; [exact Hmap|]. split.
      * intros k. rewrite Hin. split; [intros [H1 H2]; split; [lia|exact H2]|].
        intros [H1 H2]. split; [|exact H2].
        destruct (Nat.eq_dec k i) as [->|]; [|lia]. exfalso.
        apply has_close_other_spec in E. destruct E as (k' & q & Hq & Hne & Hc).
        rewrite (H2 a k' q Ha Hq) in Hc; [discriminate|lia].
      * exists (fun k => if k =? i then false else ks k). rewrite Nat.eqb_refl.
        rewrite Hks. apply filter_ext_in. intros k Hk. apply in_seq in Hk.
        destruct (Nat.eqb_spec k i); [lia|reflexivity].
    + exists (i :: keep). split; [|split].
      * simpl. rewrite Hmap, Ha. reflexivity.
      * intros k. simpl. rewrite Hin. split.
        -- intros [<-|[H1 H2]]; [|split; [lia|exact H2]]. split; [lia|].
           intros p k' q Hp Hq Hne. rewrite Ha in Hp. inversion Hp; subst.
           destruct (close_to p q) eqn:C; [|reflexivity].
           assert (has_close_other p i 0 all = true); [|congruence].
           apply has_close_other_spec. exists k', q. repeat split; auto.
        -- intros [H1 H2]. destruct (Nat.eq_dec k i) as [->|]; [now left|].
           right. split; [lia|exact H2].
      * exists (fun k => if k =? i then true else ks k). rewrite Nat.eqb_refl. f_equal.
        rewrite Hks. apply filter_ext_in. intros k Hk. apply in_seq in Hk.
        destruct (Nat.eqb_spec k i); [lia|reflexivity].
Qed.

(** unique_points_among keeps exactly the points that have no other point within
    epsilon, in their original order. *)
Lemma unique_points_spec : forall ps : list pt,
  exists keep, increasing keep /\
    (forall k, In k keep <-> k < length ps /\ isolated ps k) /\
    map Some (unique_points_among ps) = map (nth_error ps) keep.
Proof.
  intros ps. destruct (unique_loop_spec ps ps 0) as (keep & Hm & Hin & ks & Hks).
  - easy.
  - exists keep. split; [rewrite Hks; apply increasing_filter_seq|]. split; [|exact Hm].
    intros k. rewrite Hin. simpl. intuition lia.
Qed.
End Closest.
