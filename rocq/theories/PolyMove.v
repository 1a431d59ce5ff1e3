(** * A map of points that keeps the orientation predicates commutes with the polygon code,
    in any arithmetic. *)
From Coq Require Import List Arith Bool Lia.
From Verif Require Import Scalar Utils Polygon IsoSpec PolyDiag.
Import ListNotations.

Section Move.
Context {O : Ops} (f : Vec2 O -> Vec2 O) (D : Vec2 O -> Vec2 O -> Prop).
Context (Hleft : forall a b c, left (f a) (f b) (f c) = left a b c).
Context (Hlefton : forall a b c, left_on (f a) (f b) (f c) = left_on a b c).
Context (Hint : forall a b c d, D a b -> D c d -> intersect (f a) (f b) (f c) (f d) = intersect a b c d).
Context (Hnew : forall vs, olt (area_poly2 (map f vs)) c0 = olt (area_poly2 vs) c0).

Definition rmp {A B} (h : A -> B) (r : res A) : res B := match r with Ok a => Ok (h a) | Panic => Panic end.

(** Vertices at different places are in relation [D]. *)
Definition apart (vs : list (Vec2 O)) : Prop :=
  forall i j a b, i <> j -> nth_error vs i = Some a -> nth_error vs j = Some b -> D a b.

Lemma mp_index : forall vs i, index (map f vs) i = rmp f (index vs i).
Proof. intros. unfold index. rewrite nth_error_map. now destruct (nth_error vs i). Qed.
Lemma index_some : forall A (vs : list A) i a, index vs i = Ok a -> nth_error vs i = Some a.
Proof. intros A vs i a H. unfold index in H. destruct (nth_error vs i); [now inversion H|discriminate]. Qed.

Lemma mp_new : forall vs, polygon_new (map f vs) = option_map (move_poly f) (polygon_new vs).
Proof.
  intros vs. unfold polygon_new. rewrite map_length, Hnew. destruct (length vs <? 3); [reflexivity|].
  destruct (olt (area_poly2 vs) c0); cbn [option_map]; unfold move_poly; cbn [vertices]; [now rewrite map_rev|reflexivity].
Qed.

Lemma mp_cone : forall vs i j, in_cone (map f vs) i j = in_cone vs i j.
Proof.
  intros vs i j. unfold in_cone. rewrite !mp_index, map_length.
  destruct (index vs i) as [a|]; cbn [rmp bind]; [|reflexivity].
  destruct (index vs j) as [b|]; cbn [rmp bind]; [|reflexivity].
  destruct (get_neighbor_indices (length vs) i) as [pr nx]. rewrite !mp_index.
  destruct (index vs pr) as [a0|]; cbn [rmp bind]; [|reflexivity].
  destruct (index vs nx) as [a1|]; cbn [rmp bind]; [|reflexivity].
  now rewrite !Hleft, !Hlefton.
Qed.

Lemma mp_diagonal_loop : forall vs i j ks, apart vs -> i <> j ->
  diagonal_loop (map f vs) i j ks = diagonal_loop vs i j ks.
Proof.
  intros vs i j ks A N. induction ks as [|k ks IH]; [reflexivity|]. cbn [diagonal_loop]. rewrite map_length.
  destruct (negb (k =? i) && negb ((k + 1) mod length vs =? i) && negb (k =? j) && negb ((k + 1) mod length vs =? j)); [|exact IH].
  rewrite !mp_index.
  destruct (index vs i) as [a|] eqn:Ea; cbn [rmp bind]; [|reflexivity].
  destruct (index vs j) as [b|] eqn:Eb; cbn [rmp bind]; [|reflexivity].
  destruct (index vs k) as [c|] eqn:Ec; cbn [rmp bind]; [|reflexivity].
  destruct (index vs ((k + 1) mod length vs)) as [d|] eqn:Ed; cbn [rmp bind]; [|reflexivity].
  apply index_some in Ea, Eb, Ec, Ed.
  assert (Li : i < length vs) by (apply nth_error_Some; congruence).
  assert (Lj : j < length vs) by (apply nth_error_Some; congruence).
  assert (Lk : k < length vs) by (apply nth_error_Some; congruence).
  assert (K : k <> (k + 1) mod length vs).
  { destruct (Nat.eq_dec (k + 1) (length vs)) as [E|E]; [rewrite E, Nat.mod_same; lia|rewrite Nat.mod_small; lia]. }
  rewrite Hint; [now rewrite IH|exact (A _ _ _ _ N Ea Eb)|exact (A _ _ _ _ K Ec Ed)].
Qed.

Lemma mp_diagonal : forall vs i j, apart vs -> diagonal (map f vs) i j = diagonal vs i j.
Proof.
  intros vs i j A. unfold diagonal. destruct (Nat.eqb_spec i j) as [E|E]; [reflexivity|].
  rewrite map_length, (mp_diagonal_loop vs i j _ A E), !mp_cone. reflexivity.
Qed.

Lemma mp_flags : forall vs is, apart vs -> ear_flags (map f vs) is = ear_flags vs is.
Proof.
  intros vs is A. induction is as [|i is IH]; [reflexivity|]. cbn [ear_flags]. rewrite map_length, IH.
  destruct (get_neighbor_indices (length vs) i) as [pr nx]. now rewrite mp_diagonal.
Qed.

Lemma remove_map : forall A B (h : A -> B) l i, remove_at i (map h l) = map h (remove_at i l).
Proof. intros A B h l. induction l as [|x l IH]; intros [|i]; cbn [remove_at map]; try reflexivity. now rewrite IH. Qed.
Lemma remove_nth : forall A (l : list A) i k, nth_error (remove_at i l) k = nth_error l (if k <? i then k else S k).
Proof.
  intros A l. induction l as [|x l IH]; intros [|i] k; cbn [remove_at].
  - destruct k; reflexivity.
  - destruct (k <? S i); destruct k; reflexivity.
  - reflexivity.
  - destruct k as [|k]; [reflexivity|]. cbn [nth_error]. rewrite IH.
    change (S k <? S i) with (k <? i). now destruct (k <? i).
Qed.
Lemma apart_remove : forall vs v, apart vs -> apart (remove_at v vs).
Proof.
  intros vs v A i j a b N Ha Hb. rewrite remove_nth in Ha, Hb.
  eapply A; [|exact Ha|exact Hb]. destruct (Nat.ltb_spec i v), (Nat.ltb_spec j v); lia.
Qed.

Lemma mp_clip : forall vs flags v, apart vs ->
  clip_ear (map f vs) flags v = rmp (fun '(t, vs', fl) => (move_poly f t, map f vs', fl)) (clip_ear vs flags v).
Proof.
  intros vs flags v A. unfold clip_ear. rewrite map_length.
  destruct (get_neighbor_indices (length vs) v) as [v1 v3].
  destruct (get_neighbor_indices (length vs) v3) as [z v4].
  destruct (get_neighbor_indices (length vs) v1) as [v0 z'].
  rewrite !mp_index.
  destruct (index vs v1) as [p1|]; cbn [rmp bind]; [|reflexivity].
  destruct (index vs v) as [p2|]; cbn [rmp bind]; [|reflexivity].
  destruct (index vs v3) as [p3|]; cbn [rmp bind]; [|reflexivity].
  change [f p1; f p2; f p3] with (map f [p1; p2; p3]). rewrite mp_new.
  destruct (polygon_new [p1; p2; p3]) as [tri|]; cbn [option_map]; [|reflexivity].
  rewrite remove_map, !mp_diagonal by now apply apart_remove.
  destruct (diagonal (remove_at v vs) (shift v0 v) (shift v3 v)) as [e1|]; cbn [bind]; [|reflexivity].
  destruct (set_nth (shift v1 v) e1 (remove_at v flags)) as [fl|]; cbn [bind]; [|reflexivity].
  destruct (diagonal (remove_at v vs) (shift v1 v) (shift v4 v)) as [e3|]; cbn [bind]; [|reflexivity].
  now destruct (set_nth (shift v3 v) e3 fl).
Qed.
Lemma clip_rest : forall (vs : list (Vec2 O)) flags v t vs' fl, clip_ear vs flags v = Ok (t, vs', fl) -> vs' = remove_at v vs.
Proof.
  intros vs flags v t vs' fl. unfold clip_ear.
  destruct (get_neighbor_indices (length vs) v) as [v1 v3].
  destruct (get_neighbor_indices (length vs) v3) as [z v4].
  destruct (get_neighbor_indices (length vs) v1) as [v0 z'].
  destruct (index vs v1); cbn [bind]; [|discriminate]. destruct (index vs v); cbn [bind]; [|discriminate].
  destruct (index vs v3); cbn [bind]; [|discriminate]. destruct (polygon_new _); [|discriminate].
  destruct (diagonal _ _ _); cbn [bind]; [|discriminate]. destruct (set_nth _ _ _); cbn [bind]; [|discriminate].
  destruct (diagonal _ _ _); cbn [bind]; [|discriminate]. destruct (set_nth _ _ _); cbn [bind]; [|discriminate].
  intros H. now inversion H.
Qed.

Lemma mp_loop : forall fuel vs flags ts, apart vs ->
  triangulate_loop fuel (map f vs) flags (map (move_poly f) ts) =
  option_map (rmp (map (move_poly f))) (triangulate_loop fuel vs flags ts).
Proof.
  induction fuel as [|fuel IH]; intros vs flags ts A; [reflexivity|]. cbn [triangulate_loop]. rewrite map_length.
  destruct (3 <? length vs).
  - destruct (find_ear flags 0) as [v|]; [|now apply IH]. rewrite mp_clip by exact A.
    destruct (clip_ear vs flags v) as [[[t vs'] fl]|] eqn:C; cbn [rmp]; [|reflexivity].
    apply clip_rest in C. subst vs'. change [move_poly f t] with (map (move_poly f) [t]). rewrite <- map_app.
    apply IH. now apply apart_remove.
  - cbn [option_map rmp]. rewrite map_app. reflexivity.
Qed.

Theorem mp_triangulate : forall fuel p, apart (vertices p) ->
  triangulate fuel (move_poly f p) = option_map (rmp (map (move_poly f))) (triangulate fuel p).
Proof.
  intros fuel p A. unfold triangulate. cbn [move_poly vertices]. rewrite map_length.
  destruct (length (vertices p) =? 3); [reflexivity|]. rewrite mp_flags by exact A.
  destruct (ear_flags (vertices p) (seq 0 (length (vertices p)))) as [fl|]; [|reflexivity].
  apply (mp_loop fuel (vertices p) fl [] A).
Qed.
End Move.
