(** * diagonal and triangulate: facts that hold for every scalar type. *)
From Coq Require Import List Bool Lia Arith.
From Verif Require Import Scalar Utils Polygon PolySpec.
Import ListNotations.

Lemma nxt_lt : forall n i, i < n -> nxt n i < n.
Proof. intros n i H. unfold nxt. destruct (Nat.eqb_spec (S i) n); lia. Qed.
Lemma prv_lt : forall n i, i < n -> prv n i < n.
Proof. intros n [|i] H; simpl; lia. Qed.
Lemma nxt_prv : forall n i, i < n -> nxt n (prv n i) = i.
Proof.
  intros n [|i] H; unfold nxt, prv.
  - destruct (Nat.eqb_spec (S (n - 1)) n); lia.
  - destruct (Nat.eqb_spec (S i) n); lia.
Qed.
Lemma prv_nxt : forall n i, i < n -> prv n (nxt n i) = i.
Proof. intros n i H. unfold nxt. destruct (Nat.eqb_spec (S i) n); simpl; lia. Qed.

Lemma prv_cases : forall n i, prv n i = if i =? 0 then n - 1 else i - 1.
Proof. intros n [|i]; simpl; lia. Qed.

Lemma neighbors_eq : forall n i, i < n -> get_neighbor_indices n i = (prv n i, nxt n i).
Proof.
  intros n i H. unfold get_neighbor_indices, prv, nxt.
  replace (i =? n - 1) with (S i =? n).
  2:{ destruct (Nat.eqb_spec (S i) n), (Nat.eqb_spec i (n - 1)); lia. }
  replace (i + 1) with (S i) by lia.
  destruct i; simpl; [reflexivity|]. now rewrite Nat.sub_0_r.
Qed.

Lemma mod_nxt : forall n k, k < n -> (k + 1) mod n = nxt n k.
Proof.
  intros n k H. unfold nxt. destruct (Nat.eqb_spec (S k) n) as [E|E].
  - replace (k + 1) with n by lia. now apply Nat.mod_same; lia.
  - rewrite Nat.mod_small; lia.
Qed.

Lemma index_ok : forall A (d : A) l i, i < length l -> index l i = Ok (nth i l d).
Proof.
  intros A d l i H. unfold index. now rewrite (nth_error_nth' l d H).
Qed.
Lemma index_panic : forall A (l : list A) i, length l <= i -> index l i = Panic.
Proof. intros A l i H. unfold index. now rewrite (proj2 (nth_error_None l i) H). Qed.

Lemma remove_at_length : forall A i (l : list A), i < length l -> length (remove_at i l) = length l - 1.
Proof.
  intros A i l. revert i. induction l as [|x l IH]; intros [|i] H; simpl in *; try lia.
  rewrite IH by lia. destruct l; simpl in *; lia.
Qed.

Lemma remove_at_split : forall A (l m : list A) x, remove_at (length l) (l ++ x :: m) = l ++ m.
Proof. intros A l m x. induction l as [|y l IH]; simpl; [reflexivity|]. now rewrite IH. Qed.

Lemma remove_at_In : forall A i (l : list A) x, In x (remove_at i l) -> In x l.
Proof.
  intros A i l. revert i. induction l as [|y l IH]; intros [|i] x H; simpl in *; try tauto.
  destruct H as [H|H]; [now left|right]. eauto.
Qed.

Lemma remove_at_nth : forall A (d : A) i l k,
  nth k (remove_at i l) d = nth (if k <? i then k else S k) l d.
Proof.
  intros A d i l. revert i. induction l as [|y l IH]; intros i k.
  - assert (N : forall j, nth j [] d = d) by (now intros []).
    now replace (remove_at i (@nil A)) with (@nil A); [rewrite !N|destruct i].
  - destruct i as [|i]; simpl remove_at.
    + destruct (Nat.ltb_spec k 0); [lia|reflexivity].
    + destruct k as [|k]; [reflexivity|]. simpl nth at 1. rewrite IH.
      destruct (Nat.ltb_spec k i), (Nat.ltb_spec (S k) (S i)); try lia; reflexivity.
Qed.

Lemma set_nth_ok : forall A (d : A) l i x, i < length l ->
  exists l', set_nth i x l = Ok l' /\ length l' = length l /\
    (forall k, nth k l' d = if k =? i then x else nth k l d).
Proof.
  intros A d l. induction l as [|y l IH]; intros i x H; [simpl in H; lia|].
  destruct i as [|i]; simpl.
  - exists (x :: l). split; [reflexivity|]. split; [reflexivity|]. intros [|k]; reflexivity.
  - destruct (IH i x) as (l' & E & L & N); [simpl in H; lia|]. rewrite E. simpl.
    exists (y :: l'). split; [reflexivity|]. split; [simpl; now rewrite L|].
    intros [|k]; [reflexivity|]. simpl. apply N.
Qed.

Section Generic.
Context {O : Ops}.
Local Notation pt := (Vec2 O).
Local Notation vt vs i := (nth i vs (P2 c0 c0 : pt)).

(** The test of [in_cone] on the four points involved. *)
Definition cone (a0 a a1 b : pt) : bool :=
  if left_on a a1 a0 then left a b a0 && left b a a1
  else negb (left_on a b a1 && left_on b a a0).

Lemma in_cone_eq : forall (vs : list pt) i j, i < length vs -> j < length vs ->
  in_cone vs i j =
  Ok (cone (vt vs (prv (length vs) i)) (vt vs i) (vt vs (nxt (length vs) i)) (vt vs j)).
Proof.
  intros vs i j Hi Hj. unfold in_cone. rewrite neighbors_eq by assumption.
  rewrite !(index_ok _ (P2 c0 c0)) by (auto using prv_lt, nxt_lt). unfold cone; simpl.
  now destruct (left_on _ _ _).
Qed.

(** Edge k has no end in common with {i, j}. *)
Definition apart (n i j k : nat) : bool :=
  negb (k =? i) && negb (nxt n k =? i) && negb (k =? j) && negb (nxt n k =? j).

Lemma diagonal_loop_eq : forall (vs : list pt) i j ks, i < length vs -> j < length vs ->
  (forall k, In k ks -> k < length vs) ->
  diagonal_loop vs i j ks = Ok (forallb (fun k =>
    negb (apart (length vs) i j k && intersect (vt vs i) (vt vs j) (vt vs k) (vt vs (nxt (length vs) k)))) ks).
Proof.
  intros vs i j ks Hi Hj. induction ks as [|k ks IH]; intros Hk; [reflexivity|].
  cbn [diagonal_loop forallb]. rewrite mod_nxt by (apply Hk; now left).
  fold (apart (length vs) i j k).
  assert (Hk0 : k < length vs) by (apply Hk; now left).
  assert (IH' := IH (fun k' H => Hk k' (or_intror H))).
  destruct (apart (length vs) i j k); simpl andb at 2; [|exact IH'].
  rewrite !(index_ok _ (P2 c0 c0)) by (auto using nxt_lt). cbn [bind].
  destruct (intersect _ _ _ _); simpl; [reflexivity|exact IH'].
Qed.

Definition diag (vs : list pt) (i j : nat) : bool :=
  let n := length vs in
  negb (i =? j) &&
  forallb (fun k => negb (apart n i j k && intersect (vt vs i) (vt vs j) (vt vs k) (vt vs (nxt n k)))) (seq 0 n) &&
  cone (vt vs (prv n i)) (vt vs i) (vt vs (nxt n i)) (vt vs j) &&
  cone (vt vs (prv n j)) (vt vs j) (vt vs (nxt n j)) (vt vs i).

Lemma diagonal_eq : forall (vs : list pt) i j, i < length vs -> j < length vs ->
  diagonal vs i j = Ok (diag vs i j).
Proof.
  intros vs i j Hi Hj. unfold diagonal, diag.
  destruct (i =? j); [reflexivity|]. simpl negb.
  rewrite diagonal_loop_eq by (auto; intros k Hk; apply in_seq in Hk; lia).
  cbn [bind]. destruct (forallb _ _); simpl andb; [|reflexivity].
  rewrite !in_cone_eq by assumption. cbn [bind]. now destruct (cone _ _ _ _).
Qed.

Lemma diag_true : forall (vs : list pt) i j, let n := length vs in
  diag vs i j = true <->
  i <> j /\
  (forall k, k < n -> k <> i -> nxt n k <> i -> k <> j -> nxt n k <> j ->
     intersect (vt vs i) (vt vs j) (vt vs k) (vt vs (nxt n k)) = false) /\
  cone (vt vs (prv n i)) (vt vs i) (vt vs (nxt n i)) (vt vs j) = true /\
  cone (vt vs (prv n j)) (vt vs j) (vt vs (nxt n j)) (vt vs i) = true.
Proof.
  intros vs i j n. unfold diag. fold n. rewrite !andb_true_iff, negb_true_iff, Nat.eqb_neq, forallb_forall.
  split.
  - intros (((H1 & H2) & H3) & H4). repeat split; try assumption.
    intros k Hk N1 N2 N3 N4. specialize (H2 k). rewrite in_seq in H2.
    specialize (H2 ltac:(lia)). apply negb_true_iff in H2. unfold apart in H2.
    apply Nat.eqb_neq in N1, N2, N3, N4. rewrite N1, N2, N3, N4 in H2. exact H2.
  - intros (H1 & H2 & H3 & H4). repeat split; try assumption.
    intros k Hk. apply in_seq in Hk. apply negb_true_iff. unfold apart.
    destruct (Nat.eqb_spec k i), (Nat.eqb_spec (nxt n k) i), (Nat.eqb_spec k j), (Nat.eqb_spec (nxt n k) j);
      simpl; try reflexivity. apply H2; try assumption. lia.
Qed.

(** ** Ear flags *)
Definition ear (vs : list pt) (i : nat) : bool :=
  diag vs (prv (length vs) i) (nxt (length vs) i).

Lemma ear_flags_eq : forall (vs : list pt) is, (forall i, In i is -> i < length vs) ->
  ear_flags vs is = Ok (map (ear vs) is).
Proof.
  intros vs is. induction is as [|i is IH]; intros H; [reflexivity|].
  assert (Hi : i < length vs) by (apply H; now left).
  cbn [ear_flags]. rewrite neighbors_eq by assumption.
  rewrite diagonal_eq by (auto using prv_lt, nxt_lt). cbn [bind].
  rewrite IH by (intros; apply H; now right). reflexivity.
Qed.

Lemma find_ear_some : forall fl i v, find_ear fl i = Some v ->
  exists k, v = i + k /\ nth_error fl k = Some true.
Proof.
  induction fl as [|b fl IH]; intros i v H; [discriminate|]. simpl in H. destruct b.
  - inversion H. exists 0. split; [lia|reflexivity].
  - destruct (IH _ _ H) as (k & E & N). exists (S k). split; [lia|exact N].
Qed.

Lemma find_ear_none : forall fl i, find_ear fl i = None <-> forall k, nth_error fl k <> Some true.
Proof.
  induction fl as [|b fl IH]; intros i; simpl.
  - split; [|reflexivity]. intros _ [|k]; discriminate.
  - destruct b.
    + split; [discriminate|]. intros H. now specialize (H 0).
    + rewrite IH. split; intros H k; [destruct k; [discriminate|apply H]|apply (H (S k))].
Qed.

(** ** Index arithmetic of the clipping step: with [m = n - 1] remaining vertices the
    shifted neighbours are the cyclic neighbours in the shortened list. *)
Lemma shift_nxt_prv : forall n v, 3 < n -> v < n ->
  let v1 := prv n v in let v3 := nxt n v in
  let s1 := shift v1 v in let s3 := shift v3 v in
  s1 < n - 1 /\ s3 < n - 1 /\ s1 <> s3 /\
  nxt (n - 1) s1 = s3 /\ prv (n - 1) s3 = s1 /\
  shift (prv n v1) v = prv (n - 1) s1 /\ shift (nxt n v3) v = nxt (n - 1) s3.
Proof.
  intros n v Hn Hv v1 v3 s1 s3.
  assert (E1 : v1 = prv n v) by reflexivity. assert (E3 : v3 = nxt n v) by reflexivity.
  assert (F1 : s1 = shift v1 v) by reflexivity. assert (F3 : s3 = shift v3 v) by reflexivity.
  clearbody s1 s3. clearbody v1 v3.
  rewrite prv_cases in E1. unfold nxt in E3. unfold shift in F1, F3.
  assert (C : (v = 0 /\ v1 = n - 1 /\ v3 = 1 /\ s1 = n - 2 /\ s3 = 0) \/
              (v = n - 1 /\ v1 = n - 2 /\ v3 = 0 /\ s1 = n - 2 /\ s3 = 0) \/
              (0 < v < n - 1 /\ v1 = v - 1 /\ v3 = S v /\ s1 = v - 1 /\ s3 = v)).
  { destruct (Nat.eqb_spec (S v) n); [right; left|destruct (Nat.eqb_spec v 0); [left|right; right]];
      [destruct (Nat.eqb_spec v 0); [lia|]|..]; subst v1 v3;
      match type of F1 with context [?a <? ?b] => destruct (Nat.ltb_spec a b) end; try lia;
      match type of F3 with context [?a <? ?b] => destruct (Nat.ltb_spec a b) end; lia. }
  clear E1 E3 F1 F3. rewrite !prv_cases. unfold nxt, shift.
  destruct C as [C|[C|C]]; destruct C as (C1 & C2 & C3 & C4 & C5); subst v1 v3 s1 s3; repeat split; try lia;
    repeat match goal with |- context [?a =? ?b] => destruct (Nat.eqb_spec a b) end;
    repeat match goal with |- context [?a <? ?b] => destruct (Nat.ltb_spec a b) end; lia.
Qed.

Lemma polygon_new3 : forall a b c : pt,
  exists t, polygon_new [a; b; c] = Some t /\ (vertices t = [a; b; c] \/ vertices t = [c; b; a]).
Proof.
  intros a b c. unfold polygon_new. simpl length. simpl Nat.ltb.
  destruct (area_poly2 _ <? c0)%ops; eexists; (split; [reflexivity|]); [right|left]; reflexivity.
Qed.

(** One clipping step. *)
Lemma clip_ear_ok : forall (vs : list pt) fl v, 3 < length vs -> length fl = length vs -> v < length vs ->
  let n := length vs in let v1 := prv n v in let v3 := nxt n v in
  let vs' := remove_at v vs in let s1 := shift v1 v in let s3 := shift v3 v in
  exists t fl', clip_ear vs fl v = Ok (t, vs', fl') /\
    polygon_new [vt vs v1; vt vs v; vt vs v3] = Some t /\
    length fl' = length vs' /\
    (forall k, nth k fl' false =
       if k =? s3 then ear vs' s3 else if k =? s1 then ear vs' s1 else nth k (remove_at v fl) false).
Proof.
  intros vs fl v Hn Hl Hv n v1 v3 vs' s1 s3. unfold clip_ear. fold n.
  assert (H1 : v1 < n) by (now apply prv_lt). assert (H3 : v3 < n) by (now apply nxt_lt).
  rewrite (neighbors_eq n v) by exact Hv. fold v1 v3.
  rewrite (neighbors_eq n v3), (neighbors_eq n v1) by assumption.
  destruct (shift_nxt_prv n v Hn Hv) as (L1 & L3 & Ne & N1 & P3 & S0 & S4).
  fold v1 v3 in L1, L3, Ne, N1, P3, S0, S4. fold s1 s3 in L1, L3, Ne, N1, P3, S0, S4.
  rewrite !(index_ok _ (P2 c0 c0)) by assumption. cbn [bind].
  destruct (polygon_new3 (vt vs v1) (vt vs v) (vt vs v3)) as (t & Et & _). rewrite Et.
  fold vs' s1 s3. rewrite S0, S4.
  assert (Lv : length vs' = n - 1) by (now apply remove_at_length).
  rewrite !diagonal_eq by (rewrite Lv; auto using prv_lt, nxt_lt). cbn [bind].
  assert (Lf : length (remove_at v fl) = n - 1) by (rewrite remove_at_length, Hl; [reflexivity|lia]).
  destruct (set_nth_ok _ false (remove_at v fl) s1 (diag vs' (prv (n - 1) s1) s3)) as (f1 & F1 & FL1 & FN1); [lia|].
  rewrite F1. cbn [bind].
  destruct (set_nth_ok _ false f1 s3 (diag vs' s1 (nxt (n - 1) s3))) as (f2 & F2 & FL2 & FN2); [lia|].
  rewrite F2. cbn [bind]. exists t, f2. split; [reflexivity|]. split; [reflexivity|].
  split; [lia|]. intros k. rewrite FN2, FN1. unfold ear. rewrite Lv, P3, N1. reflexivity.
Qed.

(** ** Triangulation: never panics, and what it returns *)
Lemma loop_ok : forall fuel (vs : list pt) fl ts r, 3 <= length vs -> length fl = length vs ->
  triangulate_loop fuel vs fl ts = Some r ->
  exists us, r = Ok (ts ++ us) /\ length us = length vs - 2 /\
    (forall t, In t us -> length (vertices t) = 3 /\ forall p, In p (vertices t) -> In p vs).
Proof.
  induction fuel as [|fuel IH]; intros vs fl ts r Hn Hl H; [discriminate|].
  cbn [triangulate_loop] in H. destruct (Nat.ltb_spec 3 (length vs)) as [L|L].
  - destruct (find_ear fl 0) as [v|] eqn:E; [|exact (IH vs fl ts r Hn Hl H)].
    destruct (find_ear_some _ _ _ E) as (k & Ek & Nk). simpl in Ek. subst k.
    assert (Hv : v < length vs) by (rewrite <- Hl; apply nth_error_Some; congruence).
    destruct (clip_ear_ok vs fl v L Hl Hv) as (t & fl' & C & T & L' & _). rewrite C in H.
    assert (Lv : length (remove_at v vs) = length vs - 1) by (now apply remove_at_length).
    destruct (IH (remove_at v vs) fl' _ r ltac:(lia) L' H) as (us & -> & Lu & Hu).
    exists (t :: us). split; [now rewrite <- app_assoc|]. split; [simpl; lia|].
    intros t' [<-|Ht'].
    + destruct (polygon_new3 (vt vs (prv (length vs) v)) (vt vs v) (vt vs (nxt (length vs) v))) as (t'' & T' & W).
      assert (t'' = t) by congruence. subst t''.
      assert (forall p, In p (vertices t) -> In p [vt vs (prv (length vs) v); vt vs v; vt vs (nxt (length vs) v)]).
      { intros p. destruct W as [-> | ->]; simpl; tauto. }
      split; [destruct W as [-> | ->]; reflexivity|].
      intros p Hp. apply H0 in Hp. simpl in Hp.
      destruct Hp as [<-|[<-|[<-|[]]]]; apply nth_In; auto using prv_lt, nxt_lt.
    + destruct (Hu t' Ht') as [U1 U2]. split; [exact U1|]. intros p Hp.
      eapply remove_at_In, U2, Hp.
  - inversion H. exists [MkPolygon vs]. split; [reflexivity|]. split; [simpl; lia|].
    intros t [<-|[]]. simpl. split; [lia|auto].
Qed.

Theorem triangulate_ok : forall fuel (p : Polygon O) r, 3 <= length (vertices p) ->
  triangulate fuel p = Some r ->
  exists ts, r = Ok ts /\ length ts = length (vertices p) - 2 /\
    (forall t, In t ts -> length (vertices t) = 3 /\ forall q, In q (vertices t) -> In q (vertices p)).
Proof.
  intros fuel p r Hn H. unfold triangulate in H.
  destruct (Nat.eqb_spec (length (vertices p)) 3) as [E|E].
  - inversion H. exists [p]. split; [reflexivity|]. split; [simpl; lia|].
    intros t [<-|[]]. auto.
  - rewrite ear_flags_eq in H by (intros i Hi; apply in_seq in Hi; lia).
    apply loop_ok in H; [|assumption|now rewrite map_length, seq_length].
    destruct H as (us & -> & Lu & Hu). now exists us.
Qed.

(** Stuck: no ear flag set. *)
Lemma loop_stuck : forall fuel (vs : list pt) fl ts, 3 < length vs ->
  (forall k, nth_error fl k <> Some true) -> triangulate_loop fuel vs fl ts = None.
Proof.
  induction fuel as [|fuel IH]; intros vs fl ts L H; [reflexivity|].
  cbn [triangulate_loop]. rewrite (proj2 (Nat.ltb_lt 3 (length vs)) L).
  rewrite (proj2 (find_ear_none fl 0) H). now apply IH.
Qed.

Theorem triangulate_stuck : forall (p : Polygon O), 3 < length (vertices p) ->
  (forall i, i < length (vertices p) -> ear (vertices p) i = false) ->
  forall fuel, triangulate fuel p = None.
Proof.
  intros p L H fuel. unfold triangulate.
  destruct (Nat.eqb_spec (length (vertices p)) 3); [lia|].
  rewrite ear_flags_eq by (intros i Hi; apply in_seq in Hi; lia).
  apply loop_stuck; [exact L|]. intros k Hk. rewrite nth_error_map in Hk.
  destruct (nth_error (seq 0 (length (vertices p))) k) as [i|] eqn:E; [|discriminate].
  apply nth_error_In, in_seq in E. simpl in Hk. rewrite H in Hk by lia. discriminate.
Qed.

(** More fuel does not change the answer. *)
Lemma loop_mono : forall fuel fuel' (vs : list pt) fl ts r, fuel <= fuel' ->
  triangulate_loop fuel vs fl ts = Some r -> triangulate_loop fuel' vs fl ts = Some r.
Proof.
  induction fuel as [|fuel IH]; intros fuel' vs fl ts r H E; [discriminate|].
  destruct fuel' as [|fuel']; [lia|]. cbn [triangulate_loop] in *.
  destruct (3 <? length vs); [|exact E].
  destruct (find_ear fl 0) as [v|]; [|apply IH; [lia|exact E]].
  destruct (clip_ear vs fl v) as [[[t vs'] fl']|]; [|exact E]. apply IH; [lia|exact E].
Qed.
End Generic.
