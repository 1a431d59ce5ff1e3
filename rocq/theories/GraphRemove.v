(** * Proofs about remove_node and remove_edge (any scalars). *)
From Coq Require Import List Arith Bool Lia Relations String Permutation.
From Verif Require Import Scalar Utils Polygon Graph ListSpec GraphSpec GraphAdd.
Import ListNotations.

(** ** Lists *)
Lemma Forall2_same_length : forall A B (P : A -> B -> Prop) l l',
  Forall2 P l l' -> List.length l = List.length l'.
Proof. intros A B P l l' F. induction F; simpl; lia. Qed.

Lemma Forall2_weaken : forall A B (P Q : A -> B -> Prop) l l',
  (forall x y, P x y -> Q x y) -> Forall2 P l l' -> Forall2 Q l l'.
Proof. intros A B P Q l l' H F. induction F; constructor; auto. Qed.

Lemma mem_in : forall i l, mem i l = true <-> In i l.
Proof.
  intros. unfold mem. rewrite existsb_exists. split.
  - intros (x & H & E). apply Nat.eqb_eq in E. now subst.
  - intros H. exists i. split; [exact H|apply Nat.eqb_refl].
Qed.

Lemma mem_false : forall i l, mem i l = false <-> ~ In i l.
Proof. intros. rewrite <- mem_in. destruct (mem i l); intuition congruence. Qed.

Definition unmarked (marked : list nat) (i : nat) : bool := negb (mem i marked).

Lemma filter_unmarked_spec : forall A (l : list A) marked i,
  Forall2 (fun x k => i <= k /\ nth_error l (k - i) = Some x)
    (filter_unmarked marked i l) (filter (unmarked marked) (seq i (List.length l))).
Proof.
  intros A l marked. induction l as [|x l IH]; intros i; simpl; [constructor|].
  assert (W : Forall2 (fun y k => i <= k /\ nth_error (x :: l) (k - i) = Some y)
    (filter_unmarked marked (S i) l) (filter (unmarked marked) (seq (S i) (List.length l)))).
  { eapply Forall2_weaken; [|apply IH]. intros y k [H1 H2]. split; [lia|].
    replace (k - i) with (S (k - S i)) by lia. exact H2. }
  unfold unmarked at 1. destruct (mem i marked); simpl; [exact W|].
  constructor; [|exact W]. rewrite Nat.sub_diag. easy.
Qed.

Lemma filter_unmarked_nodes : forall A (l : list A) marked,
  Forall2 (fun x k => nth_error l k = Some x)
    (filter_unmarked marked 0 l) (filter (unmarked marked) (seq 0 (List.length l))).
Proof.
  intros. eapply Forall2_weaken; [|apply filter_unmarked_spec].
  intros x k [_ H]. now rewrite Nat.sub_0_r in H.
Qed.

Lemma filter_unmarked_slots : forall A (f : A -> bool) l marked i,
  (forall k, i <= k < i + List.length l ->
     (In k marked <-> exists x, nth_error l (k - i) = Some x /\ f x = true)) ->
  filter_unmarked marked i l = filter (fun x => negb (f x)) l.
Proof.
  intros A f l marked. induction l as [|x l IH]; intros i H; simpl; [reflexivity|].
  assert (M : mem i marked = f x).
  { specialize (H i). rewrite Nat.sub_diag in H. simpl in H.
    destruct (f x) eqn:F.
    - apply mem_in, H; [lia|]. eauto.
    - apply mem_false. rewrite H by lia. intros (y & Hy & Fy). inversion Hy; subst. congruence. }
  rewrite M, IH.
  - destruct (f x); reflexivity.
  - intros k Hk. rewrite (H k) by (simpl; lia).
    replace (k - i) with (S (k - S i)) by lia. reflexivity.
Qed.

Lemma list_min_spec : forall l m, list_min l = Some m -> In m l /\ forall x, In x l -> m <= x.
Proof.
  induction l as [|a l IH]; intros m H; simpl in H; [discriminate|].
  destruct (list_min l) as [m'|] eqn:E.
  - inversion H; subst. destruct (IH m' eq_refl) as [H1 H2]. split.
    + destruct (Nat.min_spec a m') as [[_ ->]|[_ ->]]; simpl; tauto.
    + intros x [<-|Hx]; [lia|]. specialize (H2 x Hx). lia.
  - inversion H; subst. split; [now left|]. intros x [<-|Hx]; [lia|].
    destruct l; [destruct Hx|]. simpl in E. destruct (list_min l); discriminate.
Qed.

Lemma list_min_none : forall l, list_min l = None <-> l = [].
Proof.
  intros [|a l]; split; try easy. simpl. destruct (list_min l); discriminate.
Qed.

(** ** Positions in the filtered index list *)
Lemma filter_seq_split : forall f i n, i < n ->
  filter f (seq 0 n) = filter f (seq 0 i) ++ filter f (seq i (n - i)).
Proof.
  intros f i n H. rewrite <- filter_app. f_equal.
  replace n with (i + (n - i)) at 1 by lia. now rewrite seq_app.
Qed.

Lemma keep_position : forall f i n, i < n -> f i = true ->
  nth_error (filter f (seq 0 n)) (List.length (filter f (seq 0 i))) = Some i.
Proof.
  intros f i n H Hf. rewrite (filter_seq_split f i n H).
  rewrite nth_error_app2 by lia. rewrite Nat.sub_diag.
  destruct (n - i) as [|m] eqn:E; [lia|]. simpl. now rewrite Hf.
Qed.

Lemma filter_partition_length : forall A (f : A -> bool) l,
  List.length (filter f l) + List.length (filter (fun x => negb (f x)) l) = List.length l.
Proof. intros A f l. induction l; simpl; [reflexivity|]. destruct (f a); simpl; lia. Qed.

Definition back (marked : list nat) (i : nat) : nat :=
  List.length (filter (fun e => e <? i) marked).

Lemma marked_below_le : forall marked i,
  List.length (filter (fun k => mem k marked) (seq 0 i)) <= back marked i.
Proof.
  intros marked i. apply NoDup_incl_length.
  - apply NoDup_filter, seq_NoDup.
  - intros k Hk. apply filter_In in Hk. destruct Hk as [H1 H2]. apply filter_In.
    apply in_seq in H1. split; [now apply mem_in|]. apply Nat.ltb_lt. lia.
Qed.

Lemma marked_below_eq : forall marked i, NoDup marked ->
  List.length (filter (fun k => mem k marked) (seq 0 i)) = back marked i.
Proof.
  intros marked i N. apply Nat.le_antisymm; [apply marked_below_le|].
  apply NoDup_incl_length; [now apply NoDup_filter|].
  intros k Hk. apply filter_In in Hk. destruct Hk as [H1 H2]. apply Nat.ltb_lt in H2.
  apply filter_In. split; [apply in_seq; lia|now apply mem_in].
Qed.

Lemma unmarked_below : forall marked i,
  List.length (filter (unmarked marked) (seq 0 i)) +
  List.length (filter (fun k => mem k marked) (seq 0 i)) = i.
Proof.
  intros. pose proof (filter_partition_length _ (fun k => mem k marked) (seq 0 i)) as H.
  rewrite seq_length in H. unfold unmarked. lia.
Qed.

Lemma back_le : forall marked i, NoDup marked -> back marked i <= i.
Proof.
  intros marked i N. rewrite <- marked_below_eq by exact N.
  pose proof (unmarked_below marked i). lia.
Qed.

Lemma back_position : forall marked i n, NoDup marked -> i < n -> ~ In i marked ->
  nth_error (filter (unmarked marked) (seq 0 n)) (i - back marked i) = Some i.
Proof.
  intros marked i n N Hi Hm. rewrite <- marked_below_eq by exact N.
  replace (i - _) with (List.length (filter (unmarked marked) (seq 0 i)))
    by (pose proof (unmarked_below marked i); lia).
  apply keep_position; [exact Hi|]. unfold unmarked. apply mem_false in Hm. now rewrite Hm.
Qed.

Lemma back_in_range : forall marked i n, i < n -> ~ In i marked ->
  i - back marked i < List.length (filter (unmarked marked) (seq 0 n)).
Proof.
  intros marked i n Hi Hm.
  assert (List.length (filter (unmarked marked) (seq 0 i)) <
          List.length (filter (unmarked marked) (seq 0 n))).
  { apply nth_error_Some. rewrite keep_position; [discriminate|exact Hi|].
    unfold unmarked. apply mem_false in Hm. now rewrite Hm. }
  pose proof (unmarked_below marked i). pose proof (marked_below_le marked i). lia.
Qed.

(** ** The remapping table *)
Lemma remap_loop_get : forall marked idxs m, remap_loop marked idxs = Ok m ->
  forall i, map_get m i =
    if mem i idxs && negb (mem i marked) then Some (i - back marked i) else None.
Proof.
  intros marked. induction idxs as [|a idxs IH]; intros m H i; simpl in H.
  - inversion H. reflexivity.
  - simpl. destruct (mem a marked) eqn:E.
    + rewrite (IH m H i). destruct (Nat.eqb_spec i a) as [->|]; simpl; [|reflexivity].
      rewrite E. simpl. now rewrite andb_false_r.
    + destruct (a <? _) eqn:F; [discriminate|].
      apply bind_ok in H. destruct H as (rest & H1 & H). inversion H; subst. simpl.
      destruct (Nat.eqb_spec i a) as [->|]; simpl.
      * rewrite E. reflexivity.
      * rewrite (IH rest H1 i). reflexivity.
Qed.

Lemma remap_loop_panic : forall marked idxs, remap_loop marked idxs = Panic <->
  exists i, In i idxs /\ ~ In i marked /\ i < back marked i.
Proof.
  intros marked. induction idxs as [|a idxs IH]; simpl.
  - split; [discriminate|]. intros (i & [] & _).
  - destruct (mem a marked) eqn:E.
    + rewrite IH. split; intros (i & H1 & H2 & H3).
      * exists i. auto.
      * destruct H1 as [<-|H1]; [apply mem_in in E; contradiction|]. exists i. auto.
    + change (List.length (filter (fun entry => entry <? a) marked)) with (back marked a).
      destruct (Nat.ltb_spec a (back marked a)) as [F|F].
      * split; [intros _|easy]. exists a. split; [now left|]. split; [now apply mem_false|exact F].
      * destruct (remap_loop marked idxs) as [rest|] eqn:R; simpl.
        -- split; [discriminate|]. intros (i & [<-|H1] & H2 & H3); [lia|].
           assert (C : @Ok (list (nat * nat)) rest = Panic) by (apply IH; eauto). discriminate.
        -- split; [intros _|reflexivity]. destruct (proj1 IH eq_refl) as (i & H1 & H2 & H3). eauto.
Qed.

(** ** Incidence *)
Section Remove.
Context {O : Ops} {T U : Type}.
Local Notation graph := (PlanarGraph O T U).
Local Notation edge := (Edge U).
Local Notation node := (Node O T).

Lemma touchesb_iff : forall i (e : edge), touchesb i e = true <-> touches i e.
Proof.
  intros. unfold touchesb, touches. rewrite orb_true_iff, !Nat.eqb_eq. reflexivity.
Qed.

Lemma touchesb_false : forall i (e : edge), touchesb i e = false <-> ~ touches i e.
Proof. intros. rewrite <- touchesb_iff. destruct (touchesb i e); intuition congruence. Qed.

Lemma includes_touchesb : forall (e : edge) i, includes e i = touchesb i e.
Proof. reflexivity. Qed.

Lemma degree_filter : forall (es : list edge) i,
  List.length (filter (fun e => includes e i) es) = degree_in es i.
Proof.
  intros es i. induction es as [|e es IH]; simpl; [reflexivity|].
  rewrite includes_touchesb. destruct (touchesb i e); simpl; lia.
Qed.

Lemma incident_count : forall (g : graph) i,
  number_of_edges_incident_to g i =
  if i <? List.length (nodes g) then Some (degree g i) else None.
Proof.
  intros g i. unfold number_of_edges_incident_to, get_vertex.
  destruct (nth_error (nodes g) i) eqn:E.
  - assert (i < List.length (nodes g)) by (apply nth_error_Some; congruence).
    apply Nat.ltb_lt in H. rewrite H, degree_filter. reflexivity.
  - apply nth_error_None in E. destruct (Nat.ltb_spec i (List.length (nodes g))); [lia|reflexivity].
Qed.

Lemma degree_pos : forall (es : list edge) i, 0 < degree_in es i <-> exists e, In e es /\ touches i e.
Proof.
  intros es i. induction es as [|e es IH]; simpl.
  - split; [lia|]. intros (e & [] & _).
  - destruct (touchesb i e) eqn:E.
    + split; [intros _|lia]. exists e. split; [now left|now apply touchesb_iff].
    + simpl. rewrite IH. split; intros (e' & H1 & H2); [eauto|].
      destruct H1 as [<-|H1]; [|eauto]. apply touchesb_iff in H2. congruence.
Qed.

Definition other_end (id : nat) (e : edge) : nat := if src e =? id then dst e else src e.

Lemma incident_loop_edges : forall (g : graph) id es idx,
  snd (incident_loop g id idx es) = slots (touchesb id) idx es.
Proof.
  intros g id es. induction es as [|e es IH]; intros idx; simpl; [reflexivity|].
  specialize (IH (S idx)). destruct (incident_loop g id (S idx) es) as [mn me]. simpl in IH. subst.
  rewrite includes_touchesb. destruct (touchesb id e); [|reflexivity].
  destruct (number_of_edges_incident_to _ _) as [[|[|n]]|]; reflexivity.
Qed.

Lemma incident_loop_nodes : forall (g : graph) id es idx,
  fst (incident_loop g id idx es) =
  map (other_end id) (filter (fun e => touchesb id e &&
     (if other_end id e <? List.length (nodes g) then degree g (other_end id e) =? 1 else false)) es).
Proof.
  intros g id es. induction es as [|e es IH]; intros idx; simpl; [reflexivity|].
  specialize (IH (S idx)). destruct (incident_loop g id (S idx) es) as [mn me]. simpl in IH. subst.
  rewrite includes_touchesb. destruct (touchesb id e); [|reflexivity].
  fold (other_end id e). rewrite incident_count.
  destruct (other_end id e <? List.length (nodes g)); simpl; [|reflexivity].
  destruct (degree g (other_end id e)) as [|[|n]]; reflexivity.
Qed.

Definition strays (g : graph) (id : nat) : list nat := fst (remove_edges_incident_to_node g id).

Lemma other_end_joins : forall id (e : edge), touches id e -> joins id (other_end id e) e.
Proof.
  intros id e H. unfold other_end, joins. destruct (Nat.eqb_spec (src e) id); [tauto|].
  destruct H; tauto.
Qed.

Lemma joins_other_end : forall id n (e : edge), joins id n e -> touches id e /\ other_end id e = n.
Proof.
  intros id n e H. unfold other_end, touches.
  destruct H as [[H1 H2]|[H1 H2]]; destruct (Nat.eqb_spec (src e) id); split; try tauto; congruence.
Qed.

Lemma strays_spec : forall (g : graph) id n, valid g ->
  (In n (strays g id) <-> adjacent g id n /\ degree g n = 1).
Proof.
  intros g id n Hv. unfold strays, remove_edges_incident_to_node.
  rewrite incident_loop_nodes, in_map_iff. split.
  - intros (e & <- & H). apply filter_In in H. destruct H as [Hin H].
    apply andb_true_iff in H. destruct H as [Ht H].
    destruct (_ <? _); [|discriminate]. apply Nat.eqb_eq in H. split; [|exact H].
    exists e. split; [exact Hin|]. apply other_end_joins. now apply touchesb_iff.
  - intros ((e & Hin & J) & D). exists e.
    pose proof (joins_other_end _ _ _ J) as [Ht E]. split; [exact E|].
    apply filter_In. split; [exact Hin|]. apply andb_true_iff.
    split; [now apply touchesb_iff|]. rewrite E.
    assert (n < List.length (nodes g)).
    { destruct (Hv e Hin). destruct J as [[? ?]|[? ?]]; subst; assumption. }
    apply Nat.ltb_lt in H. rewrite H. now apply Nat.eqb_eq.
Qed.

Lemma other_end_touches : forall id (e : edge), touches (other_end id e) e.
Proof. intros. unfold other_end, touches. destruct (src e =? id); tauto. Qed.

Lemma strays_count : forall (g : graph) id (es : list edge) f n,
  count_occ Nat.eq_dec (map (other_end id) (filter f es)) n <= degree_in es n.
Proof.
  intros g id es f n. induction es as [|e es IH]; simpl; [lia|].
  destruct (f e); simpl.
  - destruct (Nat.eq_dec (other_end id e) n) as [<-|].
    + pose proof (other_end_touches id e) as Ht. apply touchesb_iff in Ht. rewrite Ht. lia.
    + destruct (touchesb n e); lia.
  - destruct (touchesb n e); lia.
Qed.

Lemma marked_nodup : forall (g : graph) id, valid g -> ~ lonely_loop g id ->
  NoDup (id :: strays g id).
Proof.
  intros g id Hv NL. constructor.
  - intros H. apply strays_spec in H; [|exact Hv]. exact (NL H).
  - apply (NoDup_count_occ Nat.eq_dec). intros n.
    destruct (in_dec Nat.eq_dec n (strays g id)) as [H|H].
    + pose proof H as H'. apply strays_spec in H'; [|exact Hv]. destruct H' as [_ D].
      rewrite <- D. unfold strays, remove_edges_incident_to_node. rewrite incident_loop_nodes.
      apply strays_count. exact g.
    + apply (count_occ_not_In Nat.eq_dec) in H. lia.
Qed.

Lemma marked_iff : forall (g : graph) id i, valid g ->
  (In i (id :: strays g id) <-> to_delete g id i).
Proof.
  intros g id i Hv. simpl. rewrite strays_spec by exact Hv. unfold to_delete.
  intuition congruence.
Qed.

(** An edge that does not touch [id] has no end that gets deleted. *)
Lemma degree_two : forall (es : list edge) i j e e', i <> j ->
  nth_error es i = Some e -> nth_error es j = Some e' ->
  forall n, touches n e -> touches n e' -> 2 <= degree_in es n.
Proof.
  induction es as [|a es IH]; intros i j e e' Hij Hi Hj n H1 H2.
  - destruct i; discriminate.
  - simpl. destruct i as [|i], j as [|j]; simpl in Hi, Hj; [congruence| | |].
    + inversion Hi; subst. apply touchesb_iff in H1. rewrite H1.
      assert (0 < degree_in es n); [|lia]. apply degree_pos. exists e'.
      split; [eapply nth_error_In; eassumption|exact H2].
    + inversion Hj; subst. apply touchesb_iff in H2. rewrite H2.
      assert (0 < degree_in es n); [|lia]. apply degree_pos. exists e.
      split; [eapply nth_error_In; eassumption|exact H1].
    + assert (2 <= degree_in es n); [|lia]. apply (IH i j e e'); auto.
Qed.

Lemma survivor_unmarked : forall (g : graph) id e n, In e (edges g) -> ~ touches id e ->
  touches n e -> ~ to_delete g id n.
Proof.
  intros g id e n Hin Ht Hn [->|[(e' & Hin' & J) D]]; [contradiction|].
  apply In_nth_error in Hin. destruct Hin as [i Hi].
  apply In_nth_error in Hin'. destruct Hin' as [j Hj].
  assert (Hij : i <> j).
  { intros ->. rewrite Hi in Hj. inversion Hj; subst. apply Ht.
    destruct J as [[? ?]|[? ?]]; [left|right]; assumption. }
  assert (2 <= degree_in (edges g) n); [|unfold degree in D; lia].
  apply (degree_two (edges g) i j e e'); auto.
  destruct J as [[? ?]|[? ?]]; [right|left]; assumption.
Qed.

(** ** remove_node *)
Lemma marked_edges_eq : forall (g : graph) id,
  filter_unmarked (snd (remove_edges_incident_to_node g id)) 0 (edges g) =
  filter (fun e => negb (touchesb id e)) (edges g).
Proof.
  intros. unfold remove_edges_incident_to_node. rewrite incident_loop_edges.
  apply filter_unmarked_slots. intros k Hk. rewrite slots_in.
  split; [intros [_ H]; exact H|intros H; split; [lia|exact H]].
Qed.

Lemma marked_edges_empty : forall (g : graph) id,
  snd (remove_edges_incident_to_node g id) = [] <-> degree g id = 0.
Proof.
  intros g id. unfold remove_edges_incident_to_node. rewrite incident_loop_edges.
  assert (H : (exists k, In k (slots (touchesb id) 0 (edges g))) <-> 0 < degree g id).
  { unfold degree. rewrite degree_pos. split.
    - intros (k & Hk). apply slots_in in Hk. destruct Hk as (_ & e & He & Ht).
      exists e. split; [eapply nth_error_In; eassumption|now apply touchesb_iff].
    - intros (e & He & Ht). apply In_nth_error in He. destruct He as [k Hk]. exists k.
      apply slots_in. split; [lia|]. rewrite Nat.sub_0_r. exists e.
      split; [exact Hk|now apply touchesb_iff]. }
  destruct (slots (touchesb id) 0 (edges g)) as [|k l].
  - split; [|easy]. intros _. destruct (degree g id); [reflexivity|].
    destruct (proj2 H) as [k []]. lia.
  - split; [discriminate|]. intros E. exfalso.
    assert (0 < degree g id); [|lia]. apply H. exists k. now left.
Qed.

(** remove_node on an existing node, unfolded. *)
Lemma remove_node_ok : forall (g g' : graph) id cn ce, id < List.length (nodes g) ->
  remove_node g id = Ok (g', (cn, ce)) ->
  exists m mn me,
    remap_loop (id :: strays g id) (seq 0 (List.length (nodes g))) = Ok m /\
    nodes g' = filter_unmarked (id :: strays g id) 0 (nodes g) /\
    edges g' = map (remap_edge m) (filter (fun e => negb (touchesb id e)) (edges g)) /\
    list_min (id :: strays g id) = Some mn /\
    list_min (snd (remove_edges_incident_to_node g id)) = Some me /\
    cn = seq mn (List.length (nodes g) - mn) /\
    ce = seq me (List.length (edges g) - me).
Proof.
  intros g g' id cn ce Hid H. unfold remove_node in H.
  destruct (nth_error (nodes g) id) eqn:E; [|apply nth_error_None in E; lia].
  unfold strays.
  rewrite (surjective_pairing (remove_edges_incident_to_node g id)) in H.
  apply bind_ok in H. destruct H as (m & Hm & H).
  change (list_min (id :: fst (remove_edges_incident_to_node g id)))
    with (list_min (id :: fst (remove_edges_incident_to_node g id))) in H.
  destruct (list_min (id :: fst (remove_edges_incident_to_node g id))) as [mn|] eqn:Emn; [|discriminate].
  destruct (list_min (snd (remove_edges_incident_to_node g id))) as [me|] eqn:Eme; [|discriminate].
  inversion H; subst. exists m, mn, me. rewrite marked_edges_eq. repeat split; auto.
Qed.

Lemma remove_node_missing : forall (g : graph) id, List.length (nodes g) <= id ->
  remove_node g id = Ok (g, ([], [])).
Proof.
  intros g id H. unfold remove_node. apply nth_error_None in H. now rewrite H.
Qed.

Lemma remap_edge_get : forall (g : graph) id m (e : edge), valid g ->
  remap_loop (id :: strays g id) (seq 0 (List.length (nodes g))) = Ok m ->
  In e (edges g) -> ~ touches id e ->
  forall n, touches n e -> map_get m n = Some (n - back (id :: strays g id) n) /\
    n < List.length (nodes g) /\ ~ In n (id :: strays g id).
Proof.
  intros g id m e Hv Hm Hin Ht n Hn.
  assert (Hlt : n < List.length (nodes g)) by (destruct (Hv e Hin), Hn; subst; assumption).
  assert (Hu : ~ In n (id :: strays g id)).
  { rewrite marked_iff by exact Hv. eapply survivor_unmarked; eassumption. }
  split; [|easy].
  rewrite (remap_loop_get _ _ _ Hm n).
  assert (E1 : mem n (seq 0 (List.length (nodes g))) = true) by (apply mem_in, in_seq; lia).
  apply mem_false in Hu. rewrite E1, Hu. reflexivity.
Qed.

Definition keep_of (g : graph) (id : nat) : list nat :=
  filter (unmarked (id :: strays g id)) (seq 0 (List.length (nodes g))).

Lemma keep_length : forall (g g' : graph) id,
  nodes g' = filter_unmarked (id :: strays g id) 0 (nodes g) ->
  List.length (nodes g') = List.length (keep_of g id).
Proof.
  intros g g' id ->. eapply Forall2_same_length. apply filter_unmarked_nodes.
Qed.

Lemma remove_node_valid : forall (g g' : graph) id r,
  remove_node g id = Ok (g', r) -> valid g -> valid g'.
Proof.
  intros g g' id [cn ce] H Hv.
  destruct (lt_dec id (List.length (nodes g))) as [Hid|Hid].
  - apply remove_node_ok in H; [|exact Hid].
    destruct H as (m & mn & me & Hm & Hn & He & _).
    intros e' Hin. rewrite He in Hin. apply in_map_iff in Hin. destruct Hin as (e & <- & Hin).
    apply filter_In in Hin. destruct Hin as [Hin Ht].
    apply negb_true_iff, touchesb_false in Ht.
    rewrite (keep_length _ _ _ Hn). unfold remap_edge, keep_of. simpl.
    destruct (remap_edge_get g id m e Hv Hm Hin Ht (src e)) as (-> & H1 & H2); [now left|].
    destruct (remap_edge_get g id m e Hv Hm Hin Ht (dst e)) as (-> & H3 & H4); [now right|].
    split; apply back_in_range; assumption.
  - rewrite remove_node_missing in H by lia. inversion H; now subst.
Qed.

Theorem remove_node_restricts : forall (g g' : graph) id r,
  valid g -> id < List.length (nodes g) -> ~ lonely_loop g id ->
  remove_node g id = Ok (g', r) ->
  restricts (keep_of g id) g g' (to_delete g id) (filter (fun e => negb (touchesb id e)) (edges g)).
Proof.
  intros g g' id [cn ce] Hv Hid NL H.
  apply remove_node_ok in H; [|exact Hid].
  destruct H as (m & mn & me & Hm & Hn & He & _).
  pose proof (marked_nodup g id Hv NL) as ND.
  split; [|split; [|split]].
  - apply increasing_filter_seq.
  - intros i. unfold keep_of. rewrite filter_In, in_seq. unfold unmarked.
    rewrite negb_true_iff, mem_false, marked_iff by exact Hv. intuition lia.
  - rewrite Hn. apply filter_unmarked_nodes.
  - rewrite He.
    assert (F : forall e, In e (filter (fun e => negb (touchesb id e)) (edges g)) ->
              same_edge_via (keep_of g id) (remap_edge m e) e).
    { intros e Hin. apply filter_In in Hin. destruct Hin as [Hin Ht].
      apply negb_true_iff, touchesb_false in Ht.
      destruct (remap_edge_get g id m e Hv Hm Hin Ht (src e)) as (E1 & H1 & H2); [now left|].
      destruct (remap_edge_get g id m e Hv Hm Hin Ht (dst e)) as (E2 & H3 & H4); [now right|].
      unfold same_edge_via, remap_edge. simpl. rewrite E1, E2.
      split; [apply back_position; assumption|].
      split; [apply back_position; assumption|]. easy. }
    revert F. generalize (filter (fun e => negb (touchesb id e)) (edges g)).
    induction l as [|e l IH]; intros F; simpl; constructor.
    + apply F. now left.
    + apply IH. intros. apply F. now right.
Qed.

(** ** When does remove_node panic? *)
Lemma lonely_marked : forall (g : graph) id, valid g -> lonely_loop g id ->
  exists n, strays g id = [n] /\ n = id.
Proof.
  intros g id Hv [(e & Hin & J) D].
  assert (Hs : src e = id /\ dst e = id) by (destruct J as [[? ?]|[? ?]]; tauto).
  apply In_nth_error in Hin. destruct Hin as [k Hk].
  unfold strays, remove_edges_incident_to_node. rewrite incident_loop_nodes.
  assert (A : forall n, In n (map (other_end id) (filter (fun e => touchesb id e &&
     (if other_end id e <? List.length (nodes g) then degree g (other_end id e) =? 1 else false))
     (edges g))) -> n = id).
  { intros n Hn. apply in_map_iff in Hn. destruct Hn as (e' & <- & Hin').
    apply filter_In in Hin'. destruct Hin' as [Hin' Ht]. apply andb_true_iff in Ht.
    destruct Ht as [Ht _]. apply touchesb_iff in Ht.
    apply In_nth_error in Hin'. destruct Hin' as [j Hj].
    destruct (Nat.eq_dec j k) as [->|N].
    - rewrite Hk in Hj. inversion Hj; subst. unfold other_end. destruct (src e' =? _); tauto.
    - exfalso. assert (2 <= degree_in (edges g) id); [|unfold degree in D; lia].
      apply (degree_two (edges g) j k e' e); auto. left. tauto. }
  assert (B : In id (map (other_end id) (filter (fun e => touchesb id e &&
     (if other_end id e <? List.length (nodes g) then degree g (other_end id e) =? 1 else false))
     (edges g)))).
  { pose proof (proj2 (strays_spec g id id Hv)) as S. unfold strays, remove_edges_incident_to_node in S.
    rewrite incident_loop_nodes in S. apply S. split; [|exact D]. exists e.
    split; [eapply nth_error_In; eassumption|exact J]. }
  pose proof (strays_count g id (edges g) (fun e => touchesb id e &&
     (if other_end id e <? List.length (nodes g) then degree g (other_end id e) =? 1 else false)) id) as C.
  unfold degree in D at 1. rewrite D in C.
  revert A B C. generalize (map (other_end id) (filter (fun e => touchesb id e &&
     (if other_end id e <? List.length (nodes g) then degree g (other_end id e) =? 1 else false))
     (edges g))). intros l A B C.
  destruct l as [|n [|n' l]]; [destruct B| |].
  - exists n. split; [reflexivity|]. apply A. now left.
  - exfalso. rewrite (A n) in C by now left. rewrite (A n') in C by (right; now left).
    simpl in C. destruct (Nat.eq_dec id id); [|congruence]. lia.
Qed.

(** Exact characterisation of the panics of remove_node on valid graphs. *)
Theorem remove_node_panics : forall (g : graph) id, valid g ->
  (remove_node g id = Panic <->
   id < List.length (nodes g) /\
   (degree g id = 0 \/ (lonely_loop g id /\ id = 0 /\ 2 <= List.length (nodes g)))).
Proof.
  intros g id Hv.
  destruct (lt_dec id (List.length (nodes g))) as [Hid|Hid].
  2:{ rewrite remove_node_missing by lia. split; [discriminate|]. intros [H _]. lia. }
  unfold remove_node.
  destruct (nth_error (nodes g) id) eqn:E; [|apply nth_error_None in E; lia]. clear E.
  rewrite (surjective_pairing (remove_edges_incident_to_node g id)).
  fold (strays g id). unfold node_count.
  destruct (remap_loop (id :: strays g id) (seq 0 (List.length (nodes g)))) as [m|] eqn:R; cbn [bind].
  - assert (Emin : exists mn, list_min (id :: strays g id) = Some mn).
    { simpl. destruct (list_min (strays g id)); eauto. }
    destruct Emin as [mn ->].
    destruct (list_min (snd (remove_edges_incident_to_node g id))) as [me|] eqn:Eme.
    + split; [discriminate|]. intros (_ & [D|(LL & -> & Hn)]).
      * apply marked_edges_empty in D. rewrite D in Eme. discriminate.
      * exfalso. destruct (lonely_marked g 0 Hv LL) as (k & Hs & ->).
        assert (C : remap_loop (0 :: strays g 0) (seq 0 (List.length (nodes g))) = Panic).
        { apply remap_loop_panic. exists 1. rewrite in_seq, Hs. simpl. split; [lia|].
          split; [lia|]. unfold back. simpl. lia. }
        congruence.
    + split; [intros _|reflexivity]. split; [exact Hid|]. left.
      apply marked_edges_empty. now apply list_min_none.
  - split; [intros _|reflexivity]. split; [exact Hid|]. right.
    apply remap_loop_panic in R. destruct R as (i & Hi & Hm & Hb). apply in_seq in Hi.
    assert (NN : ~ ~ lonely_loop g id).
    { intros NL. pose proof (back_le _ i (marked_nodup g id Hv NL)). lia. }
    assert (LL : lonely_loop g id).
    { assert (D : {degree g id = 1} + {degree g id <> 1}) by apply Nat.eq_dec.
      destruct D as [D|D]; [|exfalso; apply NN; intros [_ ?]; contradiction].
      destruct (has_edge_between_nodes g id id) eqn:B.
      - apply between_adjacent in B. split; assumption.
      - exfalso. apply NN. intros [A _]. apply between_adjacent in A. congruence. }
    split; [exact LL|].
    destruct (lonely_marked g id Hv LL) as (k & Hs & ->). rewrite Hs in *.
    unfold back in Hb. simpl in Hb, Hm.
    destruct (Nat.ltb_spec id i); simpl in Hb; lia.
Qed.

(** ** remove_edge *)
Lemma set_nth_spec : forall A (l : list A) i x,
  set_nth i x l = if i <? List.length l then Ok (firstn i l ++ x :: skipn (S i) l) else Panic.
Proof.
  intros A l. induction l as [|y l IH]; intros [|i] x; try reflexivity.
  simpl set_nth. rewrite IH. change (S i <? List.length (y :: l)) with (i <? List.length l).
  destruct (i <? List.length l); reflexivity.
Qed.

Lemma rev_last : forall A (l : list A) x r, rev l = x :: r -> l = rev r ++ [x].
Proof. intros A l x r H. rewrite <- (rev_involutive l), H. reflexivity. Qed.

Lemma without_last : forall (es : list edge) x i, i < List.length es ->
  without i (es ++ [x]) = firstn i es ++ skipn (S i) es ++ [x].
Proof.
  intros es x i H. unfold without.
  rewrite firstn_app, skipn_app.
  replace (i - List.length es) with 0 by lia.
  replace (S i - List.length es) with 0 by lia.
  simpl. now rewrite app_nil_r.
Qed.

Lemma degree_app : forall (l l' : list edge) i, degree_in (l ++ l') i = degree_in l i + degree_in l' i.
Proof. intros. induction l; simpl; lia. Qed.

(** The edge list after removing slot [id] by swapping in the last edge. *)
Definition swap_remove (id : nat) (es : list edge) (last : edge) : list edge :=
  firstn id es ++ last :: skipn (S id) es.

(** remove_edge, case by case. *)
Lemma remove_edge_cases : forall (g : graph) id e,
  valid g -> nth_error (edges g) id = Some e ->
  remove_edge g id =
    if degree g (src e) =? 1 then remove_node g (src e)
    else if degree g (dst e) =? 1 then remove_node g (dst e)
    else if S id =? List.length (edges g) then Panic
    else match rev (edges g) with
         | [] => Panic
         | last :: r => Ok (MkGraph (nodes g) (swap_remove id (rev r) last),
                            ([], [id; List.length (edges g) - 1]))
         end.
Proof.
  intros g id e Hv He. unfold remove_edge. rewrite He. unfold get_node_indices.
  pose proof (Hv e (nth_error_In _ _ He)) as [Hs Hd].
  apply Nat.ltb_lt in Hs, Hd.
  rewrite !incident_count, Hs, Hd.
  destruct (Nat.eqb_spec (degree g (src e)) 1) as [|Ds]; [reflexivity|].
  destruct (Nat.eqb_spec (degree g (dst e)) 1) as [|Dd]; [reflexivity|].
  assert (L : id < List.length (edges g)) by (apply nth_error_Some; congruence).
  unfold edge_count.
  assert (L2 : 1 <? List.length (edges g) = true).
  { apply Nat.ltb_lt. destruct (edges g) as [|a [|b l]] eqn:E; simpl in *; [lia| |lia].
    exfalso. assert (id = 0) by lia. subst. simpl in He. inversion He; subst.
    apply Ds. unfold degree. rewrite E. simpl. unfold touchesb. now rewrite Nat.eqb_refl. }
  rewrite L2. clear L2.
  destruct (rev (edges g)) as [|last r] eqn:R.
  - match goal with |- _ = (if ?b then _ else _) => destruct b; reflexivity end.
  - apply rev_last in R. rewrite set_nth_spec, R, app_length. cbn [List.length].
    destruct (Nat.eqb_spec (S id) (List.length (rev r) + 1)) as [E|E].
    + destruct (Nat.ltb_spec id (List.length (rev r))); [lia|reflexivity].
    + rewrite R, app_length in L. simpl in L.
      destruct (Nat.ltb_spec id (List.length (rev r))); [reflexivity|lia].
Qed.

Lemma remove_edge_missing : forall (g : graph) id, List.length (edges g) <= id ->
  remove_edge g id = Ok (g, ([], [])).
Proof.
  intros g id H. unfold remove_edge. apply nth_error_None in H. now rewrite H.
Qed.

Lemma swap_remove_perm : forall (es : list edge) id last r, rev es = last :: r ->
  S id < List.length es ->
  Permutation (swap_remove id (rev r) last) (without id es).
Proof.
  intros es id last r R H. apply rev_last in R. subst es. rewrite app_length in H. simpl in H.
  rewrite without_last by lia. unfold swap_remove.
  apply Permutation_app_head. apply Permutation_cons_append.
Qed.

Lemma without_incl : forall (es : list edge) id e, In e (without id es) -> In e es.
Proof.
  intros es id e H. unfold without in H. apply in_app_or in H.
  rewrite <- (firstn_skipn (S id) es).
  destruct H as [H|H].
  - apply in_or_app. left. clear -H. revert id H. induction es as [|a es IH]; intros [|id] H; simpl in *; try tauto.
    destruct H as [H|H]; [now left|]. right. apply IH. exact H.
  - apply in_or_app. now right.
Qed.

Lemma remove_edge_valid : forall (g g' : graph) id r,
  remove_edge g id = Ok (g', r) -> valid g -> valid g'.
Proof.
  intros g g' id r H Hv.
  destruct (nth_error (edges g) id) as [e|] eqn:E.
  - rewrite (remove_edge_cases g id e Hv E) in H.
    destruct (degree g (src e) =? 1); [eapply remove_node_valid; eassumption|].
    destruct (degree g (dst e) =? 1); [eapply remove_node_valid; eassumption|].
    destruct (Nat.eqb_spec (S id) (List.length (edges g))); [discriminate|].
    destruct (rev (edges g)) as [|last rr] eqn:R; [discriminate|]. inversion H; subst.
    assert (id < List.length (edges g)) by (apply nth_error_Some; congruence).
    intros e' Hin. simpl in *. apply Hv. apply (without_incl _ id).
    eapply Permutation_in; [|exact Hin]. apply swap_remove_perm; [exact R|lia].
  - apply nth_error_None in E. rewrite remove_edge_missing in H by exact E. inversion H; now subst.
Qed.

(** Filtering out the edges at a node of degree 1 removes exactly that slot. *)
Lemma filter_degree_zero : forall (es : list edge) a, degree_in es a = 0 ->
  filter (fun e => negb (touchesb a e)) es = es.
Proof.
  intros es a. induction es as [|x es IH]; simpl; [reflexivity|].
  destruct (touchesb a x); simpl; [lia|]. intros H. now rewrite IH.
Qed.

Lemma filter_degree_one : forall (es : list edge) id e a,
  nth_error es id = Some e -> touches a e -> degree_in es a = 1 ->
  filter (fun e => negb (touchesb a e)) es = without id es.
Proof.
  induction es as [|x es IH]; intros id e a H Ht D; [destruct id; discriminate|].
  simpl in *. destruct id as [|id]; simpl in H.
  - inversion H; subst. apply touchesb_iff in Ht. rewrite Ht in *. simpl.
    unfold without. simpl. apply filter_degree_zero. lia.
  - destruct (touchesb a x) eqn:E.
    + exfalso. assert (0 < degree_in es a); [|lia]. apply degree_pos. exists e.
      split; [eapply nth_error_In; eassumption|exact Ht].
    + simpl. unfold without. simpl. f_equal. apply (IH id e a H Ht). lia.
Qed.

Lemma seq_self_nodes : forall (l : list node),
  Forall2 (fun n' i => nth_error l i = Some n') l (seq 0 (List.length l)).
Proof.
  assert (G : forall (l pre : list node),
    Forall2 (fun n' i => nth_error (pre ++ l) i = Some n') l (seq (List.length pre) (List.length l))).
  { induction l as [|x l IH]; intros pre; simpl; constructor.
    - rewrite nth_error_app2 by lia. now rewrite Nat.sub_diag.
    - specialize (IH (pre ++ [x])). rewrite app_length in IH. simpl in IH.
      rewrite Nat.add_1_r in IH. rewrite <- app_assoc in IH. exact IH. }
  intros l. exact (G l []).
Qed.

Lemma nth_error_seq0 : forall n i, i < n -> nth_error (seq 0 n) i = Some i.
Proof.
  intros n i H. rewrite (nth_error_nth' _ 0) by (now rewrite seq_length).
  now rewrite seq_nth.
Qed.

Lemma filter_true_seq : forall f n i, (forall k, i <= k < i + n -> f k = true) -> filter f (seq i n) = seq i n.
Proof.
  intros f n. induction n as [|n IH]; intros i H; simpl; [reflexivity|].
  rewrite H by lia. f_equal. apply IH. intros k Hk. apply H. lia.
Qed.

Theorem remove_edge_restricts : forall (g g' : graph) id e r,
  valid g -> nth_error (edges g) id = Some e -> ~ lonely_loop g (src e) ->
  remove_edge g id = Ok (g', r) ->
  exists keep survivors,
    Permutation survivors (without id (edges g)) /\
    restricts keep g g' (fun i => touches i e /\ degree g i = 1) survivors.
Proof.
  intros g g' id e r Hv He NL H.
  rewrite (remove_edge_cases g id e Hv He) in H.
  pose proof (nth_error_In _ _ He) as Hin.
  destruct (Hv e Hin) as [Hs Hd].
  assert (U1 : forall a, touches a e -> degree g a = 1 -> forall e', In e' (edges g) -> touches a e' -> e' = e).
  { intros a Ha D e' Hin' Ha'. apply In_nth_error in Hin'. destruct Hin' as [j Hj].
    destruct (Nat.eq_dec j id) as [->|N]; [congruence|].
    exfalso. assert (2 <= degree_in (edges g) a); [|unfold degree in D; lia].
    apply (degree_two (edges g) j id e' e); auto. }
  assert (Case : forall a, touches a e -> degree g a = 1 -> a < List.length (nodes g) ->
     remove_node g a = Ok (g', r) ->
     restricts (keep_of g a) g g' (fun i => touches i e /\ degree g i = 1) (without id (edges g))).
  { intros a Ha D La R.
    assert (NLa : ~ lonely_loop g a).
    { intros LL. apply NL. destruct LL as [(e' & Hin' & J) D'].
      assert (e' = e) by (apply (U1 a Ha D e' Hin'); destruct J as [[? ?]|[? ?]]; left; assumption).
      subst e'. assert (src e = a /\ dst e = a) by (destruct J as [[? ?]|[? ?]]; tauto).
      destruct H0 as [-> _]. split; [|exact D']. exists e. easy. }
    pose proof (remove_node_restricts g g' a r Hv La NLa R) as (I1 & I2 & I3 & I4).
    unfold degree in D. rewrite (filter_degree_one _ id e a He Ha D) in I4.
    split; [exact I1|]. split; [|split; [exact I3|exact I4]].
    intros i. rewrite I2. split; intros [Hlt Hn]; (split; [exact Hlt|]); intros Hc; apply Hn.
    - destruct Hc as [Ht Di]. destruct (Nat.eq_dec i a) as [->|N]; [now left|].
      right. split; [|exact Di]. exists e. split; [exact Hin|].
      unfold joins. destruct Ha, Ht; subst; try congruence; tauto.
    - destruct Hc as [->|[(e' & Hin' & J) Di]]; [split; assumption|].
      assert (e' = e) by (apply (U1 a Ha D e' Hin'); destruct J as [[? ?]|[? ?]]; [left|right]; assumption).
      subst e'. split; [|exact Di]. destruct J as [[? ?]|[? ?]]; [right|left]; assumption. }
  destruct (Nat.eqb_spec (degree g (src e)) 1) as [Ds|Ds].
  - exists (keep_of g (src e)), (without id (edges g)). split; [apply Permutation_refl|].
    apply Case; auto. now left.
  - destruct (Nat.eqb_spec (degree g (dst e)) 1) as [Dd|Dd].
    + exists (keep_of g (dst e)), (without id (edges g)). split; [apply Permutation_refl|].
      apply Case; auto. now right.
    + destruct (Nat.eqb_spec (S id) (List.length (edges g))); [discriminate|].
      destruct (rev (edges g)) as [|last rr] eqn:R; [discriminate|]. inversion H; subst.
      assert (L : id < List.length (edges g)) by (apply nth_error_Some; congruence).
      exists (seq 0 (List.length (nodes g))), (swap_remove id (rev rr) last).
      assert (P : Permutation (swap_remove id (rev rr) last) (without id (edges g)))
        by (apply swap_remove_perm; [exact R|lia]).
      split; [exact P|].
      split; [|split; [|split]].
      * rewrite <- (filter_true_seq (fun _ => true)) by reflexivity. apply increasing_filter_seq.
      * intros i. rewrite in_seq. split; [|intros; lia].
        intros Hi. split; [lia|]. intros [[<-|<-] D]; contradiction.
      * simpl. apply seq_self_nodes.
      * simpl. assert (V : forall e', In e' (swap_remove id (rev rr) last) ->
            src e' < List.length (nodes g) /\ dst e' < List.length (nodes g)).
        { intros e' He'. apply Hv, (without_incl _ id). eapply Permutation_in; eassumption. }
        revert V. generalize (swap_remove id (rev rr) last).
        induction l as [|x l IH]; intros V; constructor.
        -- destruct (V x) as [V1 V2]; [now left|]. unfold same_edge_via.
           rewrite !nth_error_seq0 by assumption. easy.
        -- apply IH. intros. apply V. now right.
Qed.

(** Exact characterisation of the panics of remove_edge on valid graphs. *)
Theorem remove_edge_panics : forall (g : graph) id, valid g ->
  (remove_edge g id = Panic <->
   exists e, nth_error (edges g) id = Some e /\
     ((2 <= degree g (src e) /\ 2 <= degree g (dst e) /\ S id = List.length (edges g)) \/
      (src e = 0 /\ dst e = 0 /\ degree g 0 = 1 /\ 2 <= List.length (nodes g)))).
Proof.
  intros g id Hv.
  destruct (nth_error (edges g) id) as [e|] eqn:E.
  2:{ apply nth_error_None in E. rewrite remove_edge_missing by exact E.
      split; [discriminate|]. intros (e & He & _). discriminate. }
  pose proof (nth_error_In _ _ E) as Hin.
  destruct (Hv e Hin) as [Hs Hd].
  assert (Ps : 0 < degree g (src e)) by (apply degree_pos; exists e; split; [exact Hin|now left]).
  assert (Pd : 0 < degree g (dst e)) by (apply degree_pos; exists e; split; [exact Hin|now right]).
  assert (Node : forall a, touches a e -> degree g a = 1 -> a < List.length (nodes g) ->
     (remove_node g a = Panic <-> src e = 0 /\ dst e = 0 /\ degree g 0 = 1 /\ 2 <= List.length (nodes g))).
  { intros a Ha D La. rewrite remove_node_panics by exact Hv. split.
    - intros (_ & [D0|([A _] & -> & H2)]); [lia|].
      destruct A as (e' & Hin' & J).
      assert (e' = e).
      { apply In_nth_error in Hin'. destruct Hin' as [j Hj].
        destruct (Nat.eq_dec j id) as [->|N]; [congruence|]. exfalso.
        assert (2 <= degree_in (edges g) 0); [|unfold degree in D; lia].
        apply (degree_two (edges g) j id e' e); auto.
        destruct J as [[? ?]|[? ?]]; left; assumption. }
      subst e'. repeat split; try (destruct J as [[? ?]|[? ?]]; tauto); assumption.
    - intros (S0 & D0 & Deg & H2). split; [exact La|]. right.
      assert (a = 0) by (destruct Ha; congruence). subst a.
      repeat split; auto. exists e. split; [exact Hin|]. left. easy. }
  rewrite (remove_edge_cases g id e Hv E).
  destruct (Nat.eqb_spec (degree g (src e)) 1) as [Ds|Ds].
  - rewrite (Node (src e)); [|now left|exact Ds|exact Hs]. split.
    + intros H. exists e. split; [reflexivity|]. now right.
    + intros (e' & He' & H). inversion He'; subst. destruct H as [(H & _)|H]; [lia|exact H].
  - destruct (Nat.eqb_spec (degree g (dst e)) 1) as [Dd|Dd].
    + rewrite (Node (dst e)); [|now right|exact Dd|exact Hd]. split.
      * intros H. exists e. split; [reflexivity|]. now right.
      * intros (e' & He' & H). inversion He'; subst. destruct H as [(_ & H & _)|H]; [lia|exact H].
    + destruct (Nat.eqb_spec (S id) (List.length (edges g))) as [L|L].
      * split; [intros _|reflexivity]. exists e. split; [reflexivity|]. left. lia.
      * destruct (rev (edges g)) as [|last rr] eqn:R.
        -- apply (f_equal (@rev edge)) in R. rewrite rev_involutive in R. simpl in R.
           rewrite R in E. destruct id; discriminate.
        -- split; [discriminate|]. intros (e' & He' & H). inversion He'; subst.
           destruct H as [(_ & _ & H)|(S0 & _ & H & _)]; [contradiction|].
           rewrite S0 in Ds. contradiction.
Qed.
End Remove.
