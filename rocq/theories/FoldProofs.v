(** * Lemmas about src/fold/fold.rs. *)
From Coq Require Import ZArith List Bool String Lia Permutation Arith.
From Flocq Require Import IEEE754.BinarySingleNaN.
From Verif Require Import Scalar Fold FoldSpec.
Import ListNotations.
Local Open Scope string_scope.
Local Open Scope list_scope.

(** ** Values *)
Lemma in_i32_iff : forall z, in_i32 z = true <-> (- 2 ^ 31 <= z < 2 ^ 31)%Z.
Proof. intros z. unfold in_i32, i32_min, i32_max. rewrite andb_true_iff, !Z.leb_le. lia. Qed.
Lemma de_i32_iff : forall j z, de_i32 j = Some z <-> j = JInt z /\ (- 2 ^ 31 <= z < 2 ^ 31)%Z.
Proof.
  intros j z. unfold de_i32. destruct j as [| |y| | | |]; try (split; [discriminate|now intros []]).
  destruct (in_i32 y) eqn:E.
  - apply in_i32_iff in E. split; [intros [= ->]; tauto|now intros ([= ->] & _)].
  - split; [discriminate|]. intros ([= ->] & H). apply in_i32_iff in H. congruence.
Qed.
Lemma all_some_iff : forall A B (f : A -> option B) l ys,
  all_some f l = Some ys <-> Forall2 (fun x y => f x = Some y) l ys.
Proof.
  intros A B f. induction l as [|x l IH]; intros ys; cbn [all_some].
  - split; [intros [= <-]; constructor|now inversion 1].
  - split.
    + destruct (f x) as [y|] eqn:E; [|discriminate]. destruct (all_some f l) as [zs|] eqn:E'; [|discriminate].
      intros [= <-]. constructor; [assumption|]. now apply IH.
    + inversion 1; subst. rewrite H2. apply IH in H4. now rewrite H4.
Qed.
Lemma Forall2_iff : forall A B (P Q : A -> B -> Prop), (forall x y, P x y <-> Q x y) ->
  forall l m, Forall2 P l m <-> Forall2 Q l m.
Proof. intros A B P Q H l m. split; induction 1; constructor; firstorder. Qed.
Lemma de_reads : forall t j v, de t j = Some v <-> reads t j v.
Proof.
  induction t; intros j v; cbn [de reads denote] in *.
  - apply de_i32_iff.
  - destruct j; split; intros H; try discriminate; try (destruct H as [H|(y & H & K)]; discriminate).
    + injection H as <-. right. now exists z.
    + destruct H as [H|(y & H & K)]; [discriminate|]. injection H as <-. now subst.
    + injection H as <-. now left.
    + destruct H as [H|(y & H & K)]; [|discriminate]. now injection H as <-.
  - destruct j; split; intros H; try discriminate; [now injection H as <-|now injection H as <-].
  - destruct j; try (split; [discriminate|now intros (y & H & K)]).
    rewrite all_some_iff, (Forall2_iff _ _ _ (reads t)) by apply IHt. split.
    + intros H. now exists l.
    + intros (y & [= <-] & H). exact H.
  - destruct v as [[a b] c]. split.
    + destruct j; try discriminate. destruct l as [|x [|y [|z [|]]]]; try discriminate.
      destruct (de_i32 x) eqn:X; [|discriminate]. destruct (de_i32 y) eqn:Y; [|discriminate].
      destruct (de_i32 z) eqn:Z; [|discriminate]. intros [= -> -> ->].
      apply de_i32_iff in X, Y, Z. destruct X as [-> X], Y as [-> Y], Z as [-> Z]. tauto.
    + intros (-> & A & B & C). rewrite (proj2 (de_i32_iff (JInt a) a)), (proj2 (de_i32_iff (JInt b) b)),
        (proj2 (de_i32_iff (JInt c) c)) by tauto. reflexivity.
Qed.

(** ** Objects *)
Lemma lookup_none : forall k l, lookup k l = None <-> ~ In k (map fst l).
Proof.
  intros k. induction l as [|[k' v] l IH]; cbn [lookup map fst In]; [tauto|].
  destruct (String.eqb_spec k k') as [->|N]; [split; [discriminate|tauto]|]. rewrite IH. split; [intros H [E|E]; congruence || tauto|tauto].
Qed.
Lemma lookup_in : forall k l j, lookup k l = Some j -> In (k, j) l.
Proof.
  intros k. induction l as [|[k' v] l IH]; intros j; cbn [lookup In]; [discriminate|].
  destruct (String.eqb_spec k k') as [->|N]; [intros [= ->]; now left|right; now apply IH].
Qed.
Lemma count_key_cons : forall k k' v l, count_key k ((k', v) :: l) = ((if String.eqb k k' then 1 else 0) + count_key k l)%nat.
Proof. intros. unfold count_key. cbn [filter fst]. now destruct (String.eqb k k'). Qed.
Lemma count_key_pos : forall k l, (0 < count_key k l)%nat <-> In k (map fst l).
Proof.
  intros k. induction l as [|[k' v] l IH]; [cbn; split; [lia|tauto]|].
  rewrite count_key_cons. cbn [map fst In]. destruct (String.eqb_spec k k') as [->|N]; [split; [tauto|lia]|].
  cbn [Nat.add]. rewrite IH. split; [tauto|]. intros [E|E]; [congruence|assumption].
Qed.
Lemma lookup_unique : forall k l j, (count_key k l <= 1)%nat -> In (k, j) l -> lookup k l = Some j.
Proof.
  intros k. induction l as [|[k' v] l IH]; intros j C H; [destruct H|]. rewrite count_key_cons in C. cbn [lookup].
  revert C. destruct (String.eqb_spec k k') as [->|N]; intros C.
  - destruct H as [[= ->]|H]; [reflexivity|]. apply (in_map fst) in H. apply count_key_pos in H. cbn [fst] in H. lia.
  - destruct H as [[= -> ->]|H]; [congruence|]. apply IH; [lia|assumption].
Qed.
Lemma count_key_app : forall k l m, count_key k (l ++ m) = (count_key k l + count_key k m)%nat.
Proof. intros. unfold count_key. now rewrite filter_app, app_length. Qed.
Lemma de_names_known : forall k, In k de_names <-> known k.
Proof. intros k. reflexivity. Qed.
Lemma no_repeats_iff : forall l, existsb (fun k => Nat.ltb 1 (count_key k l)) de_names = false <-> no_repeats l.
Proof.
  intros l. split.
  - intros H l1 k v l2 -> K I. apply not_true_iff_false in H. apply H. apply existsb_exists. exists k.
    split; [now apply de_names_known|]. apply Nat.ltb_lt. rewrite count_key_app, count_key_cons, String.eqb_refl.
    apply count_key_pos in I. lia.
  - intros H. apply not_true_iff_false. intros E. apply existsb_exists in E. destruct E as (k & K & C).
    apply Nat.ltb_lt in C. apply de_names_known in K. revert C.
    assert (G : forall l0 l', l = l0 ++ l' -> (count_key k l' <= 1)%nat).
    { intros l0 l'. revert l0. induction l' as [|[k' v] l' IH]; intros l0 E; [cbn; lia|].
      rewrite count_key_cons. destruct (String.eqb_spec k k') as [<-|N].
      - specialize (H _ _ _ _ E K). rewrite <- count_key_pos in H. lia.
      - apply (IH (l0 ++ [(k', v)])). now rewrite <- app_assoc. }
    specialize (G [] l eq_refl). lia.
Qed.
Lemma no_repeats_count : forall l k, no_repeats l -> known k -> (count_key k l <= 1)%nat.
Proof.
  intros l k H K. apply no_repeats_iff in H. apply Nat.nlt_ge. intros C. apply not_true_iff_false in H. apply H.
  apply existsb_exists. exists k. split; [now apply de_names_known|now apply Nat.ltb_lt].
Qed.

Lemma field_iff : forall l d v, no_repeats l -> known (fname d) ->
  (de_field (ftype d) (lookup (fname d) l) = Some v <-> field_from l d v).
Proof.
  intros l d v H K. unfold de_field, field_from. destruct (lookup (fname d) l) as [j|] eqn:E.
  - rewrite de_reads. split.
    + intros R. right. exists j. split; [now apply lookup_in|assumption].
    + intros [[N _]|(j' & I & R)]; [apply lookup_none in N; congruence|].
      rewrite (lookup_unique _ _ _ (no_repeats_count _ _ H K) I) in E. now injection E as <-.
  - apply lookup_none in E. split; [intros [= <-]; now left|].
    intros [[_ ->]|(j' & I & R)]; [reflexivity|]. apply (in_map fst) in I. now destruct E.
Qed.

(** ** The struct *)
Lemma obind_some : forall A B (m : option A) (k : A -> option B) y,
  obind m k = Some y <-> exists x, m = Some x /\ k x = Some y.
Proof.
  intros A B m k y. destruct m as [a|]; cbn [obind].
  - split; [intros H; now exists a|now intros (x & [= <-] & H)].
  - split; [discriminate|now intros (x & H & _)].
Qed.

Section Build.
Variable get : nat -> string -> option json.
(** [build] succeeds with [f] iff each field reads as the corresponding entry. *)
Lemma build_iff : forall f, build get = Some f <->
  (forall i d, nth_error fields i = Some d -> de_field (ftype d) (get i (fname d)) = Some (fget d f)) /\
  file_frames f = "".
Proof.
  intros f. split.
  - unfold build. intros H.
    repeat match type of H with obind ?m ?k = Some _ =>
      let E := fresh "E" in let v := fresh "v" in
      destruct m as [v|] eqn:E; cbn [obind] in H; [|discriminate H] end.
    injection H as <-. split; [|reflexivity]. intros i d N.
    do 24 (destruct i as [|i]; [injection N as <-; assumption|]). destruct i; discriminate.
  - intros [H F]. unfold build.
    pose proof (H 0 _ eq_refl) as G0. pose proof (H 1 _ eq_refl) as G1. pose proof (H 2 _ eq_refl) as G2.
    pose proof (H 3 _ eq_refl) as G3. pose proof (H 4 _ eq_refl) as G4. pose proof (H 5 _ eq_refl) as G5.
    pose proof (H 6 _ eq_refl) as G6. pose proof (H 7 _ eq_refl) as G7. pose proof (H 8 _ eq_refl) as G8.
    pose proof (H 9 _ eq_refl) as G9. pose proof (H 10 _ eq_refl) as G10. pose proof (H 11 _ eq_refl) as G11.
    pose proof (H 12 _ eq_refl) as G12. pose proof (H 13 _ eq_refl) as G13. pose proof (H 14 _ eq_refl) as G14.
    pose proof (H 15 _ eq_refl) as G15. pose proof (H 16 _ eq_refl) as G16. pose proof (H 17 _ eq_refl) as G17.
    pose proof (H 18 _ eq_refl) as G18. pose proof (H 19 _ eq_refl) as G19. pose proof (H 20 _ eq_refl) as G20.
    pose proof (H 21 _ eq_refl) as G21. pose proof (H 22 _ eq_refl) as G22. pose proof (H 23 _ eq_refl) as G23.
    clear H. cbn [ftype fname fget] in *. cbn [nth de_names].
    rewrite G0, G1, G2, G3, G4, G5, G6, G7, G8, G9, G10, G11, G12, G13, G14, G15, G16, G17, G18, G19, G20, G21, G22, G23.
    cbn [obind]. destruct f. cbn in F. now rewrite F.
Qed.
(** [build] succeeds iff every field does. *)
Lemma build_total : (forall i d, nth_error fields i = Some d -> exists v, de_field (ftype d) (get i (fname d)) = Some v) ->
  exists f, build get = Some f.
Proof.
  intros H. unfold build.
  repeat match goal with |- exists f, obind (de_field ?t (get ?i ?n)) _ = Some f =>
    let v := fresh "v" in let E := fresh "E" in
    destruct (H i _ eq_refl) as [v E]; cbn [ftype fname] in E; cbn [nth de_names] in E |- *;
    rewrite E; clear E; cbn [obind] end.
  eexists. reflexivity.
Qed.
End Build.

Lemma fields_known : forall d, In d fields -> known (fname d).
Proof. intros d H. now apply in_map. Qed.
Lemma deserialize_obj : forall l f, deserialize (JObj l) = Some f <->
  no_repeats l /\ (forall d, In d fields -> field_from l d (fget d f)) /\ file_frames f = "".
Proof.
  intros l f. cbn [deserialize]. destruct (existsb _ de_names) eqn:E.
  - split; [discriminate|]. intros (H & _). apply no_repeats_iff in H. congruence.
  - apply no_repeats_iff in E. rewrite build_iff. split.
    + intros [H F]. split; [assumption|]. split; [|assumption]. intros d I.
      destruct (In_nth_error _ _ I) as [i N]. apply (field_iff l d _ E (fields_known d I)). exact (H i d N).
    + intros (_ & H & F). split; [|assumption]. intros i d N. apply nth_error_In in N.
      apply (field_iff l d _ E (fields_known d N)). now apply H.
Qed.
Lemma deserialize_obj_none : forall l, deserialize (JObj l) = None <->
  ~ (no_repeats l /\ forall d, In d fields -> exists v, field_from l d v).
Proof.
  intros l. split.
  - intros H [N F]. cbn [deserialize] in H. rewrite (proj2 (no_repeats_iff l) N) in H.
    destruct (build_total (fun _ k => lookup k l)) as [f E]; [|congruence].
    intros i d I. apply nth_error_In in I. destruct (F d I) as [v V]. exists v.
    now apply (field_iff l d v N (fields_known d I)).
  - intros H. destruct (deserialize (JObj l)) as [f|] eqn:E; [|reflexivity]. apply deserialize_obj in E.
    destruct H. destruct E as (N & F & _). split; [assumption|]. intros d I. exists (fget d f). now apply F.
Qed.
Lemma deserialize_arr : forall l f, deserialize (JArr l) = Some f <->
  (List.length l <= List.length fields)%nat /\
  (forall i d, nth_error fields i = Some d ->
     match nth_error l i with Some j => reads (ftype d) j (fget d f) | None => fget d f = default (ftype d) end) /\
  file_frames f = "".
Proof.
  intros l f. cbn [deserialize]. change (List.length de_names) with (List.length fields).
  destruct (Nat.ltb_spec (List.length fields) (List.length l)) as [L|L].
  - split; [discriminate|]. intros (H & _). lia.
  - rewrite build_iff. split.
    + intros [H F]. split; [assumption|]. split; [|assumption]. intros i d N. specialize (H i d N).
      unfold de_field in H. destruct (nth_error l i) as [j|]; [now apply de_reads|congruence].
    + intros (_ & H & F). split; [|assumption]. intros i d N. specialize (H i d N).
      unfold de_field. destruct (nth_error l i) as [j|]; [now apply de_reads|congruence].
Qed.

(** ** Order and unknown keys *)
Lemma no_repeats_perm : forall l m, Permutation l m -> no_repeats l -> no_repeats m.
Proof.
  intros l m P H. assert (C : forall k, count_key k l = count_key k m).
  { intros k. clear H. induction P; [reflexivity|..].
    - destruct x. now rewrite !count_key_cons, IHP.
    - destruct x, y. rewrite !count_key_cons. lia.
    - congruence. }
  intros l1 k v l2 -> K I. pose proof (no_repeats_count _ _ H K) as B. rewrite C in B.
  rewrite count_key_app, count_key_cons, String.eqb_refl in B. apply count_key_pos in I. lia.
Qed.
Lemma field_from_perm : forall l m d v, Permutation l m -> field_from l d v -> field_from m d v.
Proof.
  intros l m d v P [[N E]|(j & I & R)].
  - left. split; [|assumption]. intros I. apply N. eapply Permutation_in; [apply Permutation_map, Permutation_sym, P|exact I].
  - right. exists j. split; [|assumption]. now apply (Permutation_in _ P).
Qed.
Lemma option_ext : forall A (x y : option A), (forall a, x = Some a <-> y = Some a) -> x = y.
Proof.
  intros A x y H. destruct x as [a|], y as [b|]; try reflexivity.
  - symmetry. now apply H.
  - symmetry. now apply H.
  - apply H. reflexivity.
Qed.
Lemma deserialize_perm : forall l m, Permutation l m -> deserialize (JObj l) = deserialize (JObj m).
Proof.
  intros l m P. apply option_ext. intros f. rewrite !deserialize_obj.
  assert (Q := Permutation_sym P).
  split; intros (N & F & E); (split; [eapply no_repeats_perm; eassumption|split; [|assumption]]);
    intros d I; (eapply field_from_perm; [eassumption|now apply F]).
Qed.
Lemma deserialize_unknown : forall l m k v, ~ known k -> deserialize (JObj (l ++ (k, v) :: m)) = deserialize (JObj (l ++ m)).
Proof.
  intros l m k v U. rewrite (deserialize_perm _ ((k, v) :: l ++ m)) by (symmetry; apply Permutation_middle).
  cbn [deserialize]. set (n := l ++ m).
  assert (L : forall k', In k' de_names -> lookup k' ((k, v) :: n) = lookup k' n /\ count_key k' ((k, v) :: n) = count_key k' n).
  { intros k' I. apply de_names_known in I. rewrite count_key_cons. cbn [lookup].
    destruct (String.eqb_spec k' k) as [->|]; [now destruct U|]. split; reflexivity. }
  assert (X : existsb (fun k' => Nat.ltb 1 (count_key k' ((k, v) :: n))) de_names =
              existsb (fun k' => Nat.ltb 1 (count_key k' n)) de_names).
  { apply eq_true_iff_eq. rewrite !existsb_exists. split; intros (k' & I & H); exists k'; (split; [assumption|]);
      [rewrite <- (proj2 (L k' I))|rewrite (proj2 (L k' I))]; assumption. }
  rewrite X. clear X. destruct (existsb _ de_names); [reflexivity|]. apply option_ext. intros f. rewrite !build_iff.
  split; intros [H F]; (split; [|assumption]); intros i d N; specialize (H i d N);
    apply nth_error_In, fields_known, de_names_known, L in N; destruct N as [N _];
    [rewrite <- N|rewrite N]; exact H.
Qed.

(** ** Saving and loading *)
Fixpoint all_finite (t : fty) : denote t -> Prop :=
  match t return denote t -> Prop with
  | TI32 => fun _ => True
  | TF32 => fun v => is_finite v = true
  | TStr => fun _ => True
  | TVec t => fun v => Forall (all_finite t) v
  | TArr3 => fun _ => True
  end.
Lemma reads_ser : forall t v w, typed t v -> (reads t (ser t v) w <-> w = v /\ all_finite t v).
Proof.
  induction t; intros v w T; cbn [reads ser all_finite typed denote] in *.
  - split; [intros [[= ->] _]; tauto|intros [-> _]; tauto].
  - destruct (is_finite v) eqn:E.
    + split; [intros [[= ->]|(z & H & _)]; [tauto|discriminate]|intros [-> _]; tauto].
    + split; [intros [H|(z & H & _)]; discriminate|intros [_ H]; discriminate].
  - split; [intros [= ->]; tauto|now intros [-> _]].
  - split.
    + intros (l & [= <-] & H). rewrite Forall_forall in T.
      assert (G : forall v w, (forall x, In x v -> typed t x) -> Forall2 (reads t) (map (ser t) v) w -> w = v /\ Forall (all_finite t) v).
      { clear -IHt. induction v as [|x v IH]; intros w T H; inversion H; subst; [now split|].
        apply IHt in H2; [|apply T; now left]. destruct H2 as [-> H2].
        destruct (IH l' (fun y I => T y (or_intror I)) H4) as [-> G]. split; [reflexivity|now constructor]. }
      now apply G.
    + intros [-> F]. exists (map (ser t) v). split; [reflexivity|].
      induction v as [|x v IH]; constructor.
      * apply IHt; [now inversion T|]. split; [reflexivity|now inversion F].
      * apply IH; [now inversion T|now inversion F].
  - destruct v as [[a b] c], w as [[a' b'] c']. split.
    + intros ([= -> -> ->] & _). tauto.
    + intros ([= -> -> ->] & _). tauto.
Qed.

(** What comes back: the fields whose saved name is not the loaded name are lost. *)
Definition survives (f g : Fold) : Prop :=
  file_frames g = "" /\ edges_foldangles g = [] /\ faceorders g = [] /\ edgeorders g = [] /\
  forall d, In d fields -> ~ In (fname d) ["edges_foldAngles"; "faceOrders"; "edgeOrders"] -> fget d g = fget d f.
Lemma no_repeats_serialize : forall f l, serialize f = JObj l -> no_repeats l.
Proof. intros f l [= <-]. apply no_repeats_iff. reflexivity. Qed.
Lemma saved_field : forall f d, In d fields -> fold_typed f ->
  match serialize f with
  | JObj l => forall v, field_from l d v <->
      if existsb (String.eqb (fname d)) ["edges_foldAngles"; "faceOrders"; "edgeOrders"]
      then v = default (ftype d)
      else v = fget d f /\ all_finite (ftype d) (fget d f)
  | _ => False
  end.
Proof.
  intros f d I T. unfold serialize. intros v.
  rewrite <- (field_iff _ d v (no_repeats_serialize f _ eq_refl) (fields_known d I)).
  specialize (T d I). revert I v T.
  assert (G : forall d, In d fields -> forall v : denote (ftype d), typed (ftype d) (fget d f) ->
    match serialize f with
    | JObj l => de_field (ftype d) (lookup (fname d) l) = Some v <->
        if existsb (String.eqb (fname d)) ["edges_foldAngles"; "faceOrders"; "edgeOrders"]
        then v = default (ftype d) else v = fget d f /\ all_finite (ftype d) (fget d f)
    | _ => False end).
  { clear d. intros d I. unfold fields in I.
    repeat (destruct I as [<-|I]; [intros v T;
      match goal with |- context [MkField ?n _ _] => idtac end;
      cbn [ftype fname fget] in v, T |- *; unfold serialize;
      match goal with |- context [lookup ?k ?l] => let r := eval cbn [lookup String.eqb Ascii.eqb Bool.eqb] in (lookup k l) in change (lookup k l) with r end;
      match goal with |- context [existsb ?p ?l] => let r := eval vm_compute in (existsb p l) in change (existsb p l) with r end;
      cbv iota; unfold de_field;
      first [rewrite de_reads; exact (reads_ser _ _ v T)
            |split; [intros E; now injection E|intros ->; reflexivity]]|]).
    destruct I. }
  intros I v T. exact (G d I v T).
Qed.
Lemma round_trip : forall f g, fold_typed f ->
  (deserialize (serialize f) = Some g <->
   survives f g /\ all_finite (TVec (TVec TF32)) (vertices_coords f) /\ all_finite (TVec TF32) (edges_lengths f)).
Proof.
  intros f g T. pose proof (fun d I => saved_field f d I T) as S. pose proof (no_repeats_serialize f) as N.
  destruct (serialize f) as [| | | | | |l] eqn:E; try discriminate. specialize (N l eq_refl).
  rewrite deserialize_obj. split.
  - intros (_ & H & F). split.
    + split; [exact F|].
      assert (A : forall d, In d fields -> _) by (intros d I; exact (proj1 (S d I _) (H d I))).
      pose proof (A (MkField "edges_foldAngles" (TVec TF32) edges_foldangles) ltac:(unfold fields; cbn [In]; tauto)) as A1.
      pose proof (A (MkField "faceOrders" (TVec TArr3) faceorders) ltac:(unfold fields; cbn [In]; tauto)) as A2.
      pose proof (A (MkField "edgeOrders" (TVec TArr3) edgeorders) ltac:(unfold fields; cbn [In]; tauto)) as A3.
      split; [exact A1|]. split; [exact A2|]. split; [exact A3|].
      intros d I U. specialize (A d I). destruct (existsb (String.eqb (fname d)) _) eqn:X; [|tauto].
      apply existsb_exists in X. destruct X as (k & K & Q). apply String.eqb_eq in Q. subst k. now destruct U.
    + split.
      * pose (d := MkField "vertices_coords" (TVec (TVec TF32)) vertices_coords).
        assert (I : In d fields) by (unfold fields; cbn [In]; tauto).
        exact (proj2 (proj1 (S d I _) (H d I))).
      * pose (d := MkField "edges_lengths" (TVec TF32) edges_lengths).
        assert (I : In d fields) by (unfold fields; cbn [In]; tauto).
        exact (proj2 (proj1 (S d I _) (H d I))).
  - intros ((F & A1 & A2 & A3 & A) & C & L). split; [exact N|]. split; [|exact F]. intros d I.
    apply (S d I). destruct (existsb (String.eqb (fname d)) _) eqn:X.
    + unfold fields in I. repeat (destruct I as [<-|I]; [first [discriminate X|assumption]|]). destruct I.
    + split.
      * apply A; [assumption|]. intros U. apply not_true_iff_false in X. apply X. apply existsb_exists.
        exists (fname d). split; [assumption|apply String.eqb_refl].
      * clear S A H0 || clear S A.
        assert (NF : forall t, (forall v : denote t, all_finite t v) -> forall v : denote (TVec t), all_finite (TVec t) v).
        { intros t Q v. apply Forall_forall. intros x _. apply Q. }
        assert (Q1 : forall v : denote TI32, all_finite TI32 v) by (intros; exact Logic.I).
        assert (Q2 : forall v : denote TStr, all_finite TStr v) by (intros; exact Logic.I).
        unfold fields in I.
        repeat (destruct I as [<-|I]; [first [discriminate X|assumption|exact Logic.I|exact (NF _ Q2 _)|exact (NF _ (NF _ Q1) _)]|]).
        destruct I.
Qed.
Lemma reads_typed : forall t j v, reads t j v -> typed t v.
Proof.
  induction t; intros j v H; cbn [reads typed denote] in *; try tauto.
  - destruct H as (l & _ & H). induction H; constructor; [eapply IHt; eassumption|assumption].
  - destruct v as [[a b] c]. tauto.
Qed.
Lemma default_typed : forall t, typed t (default t).
Proof. destruct t; cbn; try constructor; lia. Qed.
Lemma loaded_typed : forall j f, deserialize j = Some f -> fold_typed f /\ file_frames f = "".
Proof.
  intros j f H. destruct j as [| | | | |l|l]; try discriminate.
  - apply deserialize_arr in H. destruct H as (_ & H & F). split; [|assumption]. intros d I.
    destruct (In_nth_error _ _ I) as [i N]. specialize (H i d N). destruct (nth_error l i) as [j|].
    + eapply reads_typed, H.
    + rewrite H. apply default_typed.
  - apply deserialize_obj in H. destruct H as (_ & H & F). split; [|assumption]. intros d I.
    destruct (H d I) as [[_ ->]|(j & _ & R)]; [apply default_typed|eapply reads_typed, R].
Qed.
Lemma from_file_json : forall j f, from_file (Json j) = Ok (IoOk f) <-> deserialize j = Some f.
Proof.
  intros j f. cbn [from_file]. destruct (deserialize j) as [g|]; [|split; discriminate].
  unfold resolve. split; [now intros [= ->]|now intros [= ->]].
Qed.
Lemma from_file_obj : forall l f, from_file (Json (JObj l)) = Ok (IoOk f) <->
  no_repeats l /\ (forall d, In d fields -> field_from l d (fget d f)) /\ file_frames f = "".
Proof. intros l f. rewrite from_file_json. apply deserialize_obj. Qed.
Lemma from_file_panic : forall j, from_file (Json j) = Panic <-> deserialize j = None.
Proof. intros j. cbn [from_file]. destruct (deserialize j); split; discriminate || reflexivity. Qed.
Lemma malformed_panics : forall l d j, In d fields -> In (fname d, j) l -> (forall v, ~ reads (ftype d) j v) ->
  from_file (Json (JObj l)) = Panic.
Proof.
  intros l d j I H K. apply from_file_panic, deserialize_obj_none. intros [N F].
  destruct (F d I) as [v [[A _]|(j' & A & R)]].
  - apply A. apply (in_map fst) in H. exact H.
  - pose proof (no_repeats_count l _ N (fields_known d I)) as C.
    pose proof (lookup_unique _ _ _ C H) as E. rewrite (lookup_unique _ _ _ C A) in E.
    injection E as ->. exact (K v R).
Qed.
Lemma err_iff : forall c, (from_file c = Ok IoErr <-> c = IoError) /\ from_file NotJson = Panic.
Proof.
  intros c. split; [|reflexivity]. destruct c as [| |j]; cbn [from_file]; try (split; discriminate || reflexivity).
  destruct (deserialize j); split; discriminate.
Qed.
Lemma loads_iff : forall c, (exists f, from_file c = Ok (IoOk f)) <->
  (exists l, c = Json (JObj l) /\ no_repeats l /\
     forall d j, In d fields -> In (fname d, j) l -> exists v, reads (ftype d) j v) \/
  (exists l, c = Json (JArr l) /\ (List.length l <= List.length fields)%nat /\
     forall i d j, nth_error fields i = Some d -> nth_error l i = Some j -> exists v, reads (ftype d) j v).
Proof.
  intros c. split.
  - intros [f H]. destruct c as [| |j]; try discriminate. apply from_file_json in H.
    destruct j as [| | | | |l|l]; try discriminate.
    + right. exists l. split; [reflexivity|]. apply deserialize_arr in H. destruct H as (L & H & _).
      split; [assumption|]. intros i d j N M. specialize (H i d N). rewrite M in H. now exists (fget d f).
    + left. exists l. split; [reflexivity|]. pose proof H as H'. apply deserialize_obj in H. destruct H as (N & H & _).
      split; [assumption|]. intros d j I K. exists (fget d f). destruct (H d I) as [[A _]|(j' & A & R)].
      * destruct A. now apply (in_map fst) in K.
      * pose proof (no_repeats_count l _ N (fields_known d I)) as C.
        pose proof (lookup_unique _ _ _ C K) as E. rewrite (lookup_unique _ _ _ C A) in E. now injection E as ->.
  - intros [(l & -> & N & H)|(l & -> & L & H)].
    + destruct (deserialize (JObj l)) as [f|] eqn:E; [exists f; now apply from_file_json|].
      apply deserialize_obj_none in E. destruct E. split; [assumption|]. intros d I.
      destruct (lookup (fname d) l) as [j|] eqn:K.
      * apply lookup_in in K. destruct (H d j I K) as [v V]. exists v. right. now exists j.
      * apply lookup_none in K. exists (default (ftype d)). now left.
    + destruct (build_total (fun i _ => nth_error l i)) as [f E].
      * intros i d N. unfold de_field. destruct (nth_error l i) as [j|] eqn:M; [|now exists (default (ftype d))].
        destruct (H i d j N M) as [v V]. exists v. now apply de_reads.
      * exists f. apply from_file_json. cbn [deserialize]. change (List.length de_names) with (List.length fields).
        destruct (Nat.ltb_spec (List.length fields) (List.length l)); [lia|exact E].
Qed.
Lemma id_range : forall l d a b c e z, In d fields -> ftype d = TVec (TVec TI32) ->
  In (fname d, JArr (a ++ JArr (b ++ JInt z :: c) :: e)) l ->
  (z < - 2 ^ 31 \/ 2 ^ 31 <= z)%Z -> from_file (Json (JObj l)) = Panic.
Proof.
  intros l d a b c e z I T H Z. apply (malformed_panics l d _ I H). clear H. destruct d as [n t g]. cbn [ftype] in *. subst t.
  intros v. cbn [reads]. intros (m & [= <-] & F). apply Forall2_app_inv_l in F.
  destruct F as (v1 & v2 & _ & F & _). inversion F as [|x y l1 l2 R _]; subst. destruct R as (m' & [= <-] & R).
  apply Forall2_app_inv_l in R. destruct R as (w1 & w2 & _ & R & _). inversion R as [|x' y' l1' l2' Q _]; subst.
  destruct Q as [[= <-] Q]. lia.
Qed.
Lemma fold_ext : forall f g, file_frames f = file_frames g -> (forall d, In d fields -> fget d f = fget d g) -> f = g.
Proof.
  intros f g F H.
  assert (A : forall i d, nth_error fields i = Some d -> fget d f = fget d g) by (intros i d N; apply H; eapply nth_error_In, N).
  clear H. destruct f, g. cbn in F.
  pose proof (A 0 _ eq_refl) as G0. pose proof (A 1 _ eq_refl) as G1. pose proof (A 2 _ eq_refl) as G2.
  pose proof (A 3 _ eq_refl) as G3. pose proof (A 4 _ eq_refl) as G4. pose proof (A 5 _ eq_refl) as G5.
  pose proof (A 6 _ eq_refl) as G6. pose proof (A 7 _ eq_refl) as G7. pose proof (A 8 _ eq_refl) as G8.
  pose proof (A 9 _ eq_refl) as G9. pose proof (A 10 _ eq_refl) as G10. pose proof (A 11 _ eq_refl) as G11.
  pose proof (A 12 _ eq_refl) as G12. pose proof (A 13 _ eq_refl) as G13. pose proof (A 14 _ eq_refl) as G14.
  pose proof (A 15 _ eq_refl) as G15. pose proof (A 16 _ eq_refl) as G16. pose proof (A 17 _ eq_refl) as G17.
  pose proof (A 18 _ eq_refl) as G18. pose proof (A 19 _ eq_refl) as G19. pose proof (A 20 _ eq_refl) as G20.
  pose proof (A 21 _ eq_refl) as G21. pose proof (A 22 _ eq_refl) as G22. pose proof (A 23 _ eq_refl) as G23.
  clear A. cbn in *. subst. reflexivity.
Qed.
(** The struct a save and load produces. *)
Definition strip (f : Fold) : Fold :=
  MkFold (file_spec f) (file_creator f) (file_author f) (file_title f) (file_description f) (file_classes f) ""
    (frame_author f) (frame_title f) (frame_description f) (frame_classes f) (frame_attributes f) (frame_unit f)
    (vertices_coords f) (vertices_vertices f) (vertices_faces f) (edges_vertices f) (edges_faces f)
    (edges_assignment f) [] (edges_lengths f) (faces_vertices f) (faces_edges f) [] [].
Lemma strip_survives : forall f, survives f (strip f).
Proof.
  intros f. repeat split. intros d I U. unfold fields in I.
  repeat (destruct I as [<-|I]; [first [reflexivity|destruct U; cbn [fname In]; tauto]|]). destruct I.
Qed.
Lemma strip_typed : forall f, fold_typed f -> fold_typed (strip f).
Proof.
  intros f T d I. specialize (T d I). unfold fields in I.
  repeat (destruct I as [<-|I]; [first [exact T|constructor]|]). destruct I.
Qed.
Lemma save_load : forall f, fold_typed f ->
  let finite := Forall (Forall (fun x : f32 => is_finite x = true)) (vertices_coords f) /\
                Forall (fun x : f32 => is_finite x = true) (edges_lengths f) in
  (forall g, deserialize (serialize f) = Some g <->
     finite /\
     file_frames g = "" /\ edges_foldangles g = [] /\ faceorders g = [] /\ edgeorders g = [] /\
     forall d, In d fields -> ~ In (fname d) ["edges_foldAngles"; "faceOrders"; "edgeOrders"] -> fget d g = fget d f) /\
  (deserialize (serialize f) = Some f <->
     finite /\ file_frames f = "" /\ edges_foldangles f = [] /\ faceorders f = [] /\ edgeorders f = []) /\
  (finite -> exists g, deserialize (serialize f) = Some g /\ deserialize (serialize g) = Some g) /\
  (~ finite -> from_file (Json (serialize f)) = Panic).
Proof.
  intros f T finite. split; [|split; [|split]].
  - intros g. rewrite round_trip by assumption. unfold survives, finite. cbn [all_finite]. tauto.
  - rewrite round_trip by assumption. unfold survives, finite. cbn [all_finite]. intuition.
  - intros F. exists (strip f). split.
    + apply round_trip; [assumption|]. split; [apply strip_survives|exact F].
    + apply round_trip; [now apply strip_typed|]. split; [|exact F].
      destruct (strip_survives f) as (A & B & C & D & E). unfold survives. intuition.
  - intros F. apply from_file_panic. destruct (deserialize (serialize f)) as [g|] eqn:E; [|reflexivity].
    apply round_trip in E; [|assumption]. destruct F. exact (proj2 E).
Qed.
