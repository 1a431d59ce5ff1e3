(** * Strictly convex polygons: every chord is a diagonal, and triangulate returns. *)
From Coq Require Import Reals List Bool Lra Lia Psatz Arith.
From Verif Require Import Scalar Utils Polygon PlaneSpec PolySpec Laws UtilsReal PolyArea PolyDiag PolyTri.
Import ListNotations.
Local Open Scope R_scope.

Definition cyclic (i j k : nat) : Prop := (i < j < k \/ j < k < i \/ k < i < j)%nat.

Lemma convex_cyclic : forall vs i j k, strictly_convex vs -> cyclic i j k ->
  (i < length vs)%nat -> (j < length vs)%nat -> (k < length vs)%nat ->
  0 < cross (vtx vs i) (vtx vs j) (vtx vs i) (vtx vs k).
Proof.
  intros vs i j k C [H|[H|H]] Hi Hj Hk.
  - apply C; lia.
  - rewrite <- cross_rot. apply C; lia.
  - rewrite (cross_rot (vtx vs k)). apply C; lia.
Qed.

Lemma one_side_apart : forall a b c d : point, c <> d ->
  0 < cross a b a c -> 0 < cross a b a d -> intersect (O := RO) a b c d = false.
Proof.
  intros a b c d Ncd H1 H2. apply not_true_is_false.
  assert (Nab : a <> b) by (intros ->; unfold cross in H1; lra).
  rewrite intersect_iff by assumption.
  intros (x & (t & Ht & Ex) & (s & Hs & Ey)).
  assert (Z : cross a b a x = 0) by (rewrite Ex; unfold cross, along; simpl; ring).
  assert (Y : cross a b a x = (1 - s) * cross a b a c + s * cross a b a d)
    by (rewrite Ey; unfold cross, along; simpl; ring).
  assert (0 <= (1 - s) * cross a b a c) by (apply Rmult_le_pos; lra).
  destruct (Rle_lt_dec s 0); [replace s with 0 in * by lra; lra|].
  assert (0 < s * cross a b a d) by (apply Rmult_lt_0_compat; lra). lra.
Qed.

Section Convex.
Context (vs : list point) (C : strictly_convex vs).
Let n := length vs.

Lemma convex_cone : forall i j, (i < n)%nat -> (j < n)%nat -> i <> j -> j <> nxt n i -> i <> nxt n j ->
  cone (O := RO) (vtx vs (prv n i)) (vtx vs i) (vtx vs (nxt n i)) (vtx vs j) = true.
Proof.
  intros i j Hi Hj N1 N2 N3. unfold cone.
  assert (H0 : (prv n i < n)%nat) by (now apply prv_lt). assert (H1 : (nxt n i < n)%nat) by (now apply nxt_lt).
  assert (Np : j <> prv n i) by (intros ->; rewrite nxt_prv in N3; auto).
  assert (X : cyclic i (nxt n i) (prv n i) /\ cyclic i j (prv n i) /\ cyclic i (nxt n i) j).
  { unfold cyclic, nxt in *. rewrite prv_cases in *.
    destruct (Nat.eqb_spec (S i) n), (Nat.eqb_spec i 0), (Nat.eqb_spec (S j) n); lia. }
  destruct X as (X1 & X2 & X3).
  assert (E : left_on (O := RO) (vtx vs i) (vtx vs (nxt n i)) (vtx vs (prv n i)) = true).
  { apply left_on_iff. left. now apply convex_cyclic. }
  rewrite E, andb_true_iff, !left_iff. split; [now apply convex_cyclic|].
  rewrite <- (cross_rot (vtx vs j)). now apply convex_cyclic.
Qed.

Lemma convex_distinct : forall i j, (2 < n)%nat -> (i < n)%nat -> (j < n)%nat -> i <> j -> vtx vs i <> vtx vs j.
Proof.
  intros i j Hn Hi Hj N E.
  assert (X : exists k, (k < n)%nat /\ k <> i /\ k <> j).
  { destruct (Nat.eq_dec i 0), (Nat.eq_dec j 0), (Nat.eq_dec i 1), (Nat.eq_dec j 1); try lia;
      (exists 0%nat; lia) || (exists 1%nat; lia) || (exists 2%nat; lia). }
  destruct X as (k & Hk & N1 & N2).
  assert (X : cyclic i j k \/ cyclic j i k) by (unfold cyclic; lia).
  destruct X as [X|X]; apply (convex_cyclic vs _ _ _ C) in X; try assumption; rewrite E in X; unfold cross in X; lra.
Qed.

Lemma convex_diag_lt : forall i j, (i < j < n)%nat -> j <> nxt n i -> i <> nxt n j -> diag (O := RO) vs i j = true.
Proof.
  intros i j H N1 N2. apply diag_true. split; [lia|]. split; [|split].
  2,3: apply convex_cone; auto; lia.
  intros k Hk M1 M2 M3 M4.
  change (intersect (O := RO) (vtx vs i) (vtx vs j) (vtx vs k) (vtx vs (nxt n k)) = false).
  change (k < n)%nat in Hk.
  assert (H1 : (nxt n k < n)%nat) by (now apply nxt_lt).
  change (nxt n k <> i) in M2. change (nxt n k <> j) in M4.
  assert (D : vtx vs k <> vtx vs (nxt n k)).
  { apply convex_distinct; try assumption; [lia|]. unfold nxt in *. destruct (Nat.eqb_spec (S k) n); lia. }
  assert (X : (cyclic i j k /\ cyclic i j (nxt n k)) \/ (cyclic j i k /\ cyclic j i (nxt n k))).
  { unfold cyclic, nxt in *. destruct (Nat.eqb_spec (S k) n); lia. }
  destruct X as [[X1 X2]|[X1 X2]].
  - apply one_side_apart; [exact D| |]; apply convex_cyclic; auto; lia.
  - rewrite <- intersect_sym. apply one_side_apart; [exact D| |]; apply convex_cyclic; auto; lia.
Qed.

Theorem convex_diag : forall i j, (i < n)%nat -> (j < n)%nat -> i <> j -> j <> nxt n i -> i <> nxt n j ->
  diag (O := RO) vs i j = true.
Proof.
  intros i j Hi Hj N N1 N2. destruct (Nat.lt_ge_cases i j).
  - apply convex_diag_lt; auto.
  - rewrite diag_sym. apply convex_diag_lt; auto. lia.
Qed.

Lemma convex_ear : forall i, (3 < n)%nat -> (i < n)%nat -> ear (O := RO) vs i = true.
Proof.
  intros i Hn Hi. change (diag (O := RO) vs (prv n i) (nxt n i) = true).
  assert (X : prv n i <> nxt n i /\ nxt n i <> nxt n (prv n i) /\ prv n i <> nxt n (nxt n i)).
  { rewrite nxt_prv by exact Hi. unfold nxt. rewrite prv_cases.
    destruct (Nat.eqb_spec (S i) n), (Nat.eqb_spec i 0);
      repeat match goal with |- context [Nat.eqb ?a ?b] => destruct (Nat.eqb_spec a b) end; lia. }
  destruct X as (X1 & X2 & X3). apply convex_diag; auto using prv_lt, nxt_lt.
Qed.

Lemma convex_remove : forall v, strictly_convex (remove_at v vs).
Proof.
  intros v i j k H Hk. unfold vtx. rewrite !remove_at_nth.
  destruct (Nat.lt_ge_cases v n) as [Hv|Hv].
  - rewrite remove_at_length in Hk by exact Hv. apply C; fold n; change (length vs) with n in Hk.
    + destruct (Nat.ltb_spec i v), (Nat.ltb_spec j v), (Nat.ltb_spec k v); lia.
    + destruct (Nat.ltb_spec k v); fold n; lia.
  - assert (E : remove_at v vs = vs).
    { clear -Hv. unfold n in Hv. revert v Hv. induction vs as [|x l IH]; intros [|v] H; simpl in *; try reflexivity; try lia.
      f_equal. apply IH. lia. }
    rewrite E in Hk. fold n in Hk. apply C; fold n;
    destruct (Nat.ltb_spec i v), (Nat.ltb_spec j v), (Nat.ltb_spec k v); lia.
Qed.
End Convex.

Lemma shift_range : forall n v k, (v < n)%nat -> (k < n - 1)%nat -> ((if Nat.ltb k v then k else S k) < n)%nat.
Proof. intros n v k Hv Hk. destruct (Nat.ltb_spec k v); lia. Qed.

Lemma convex_loop : forall fuel (vs : list point) fl ts, strictly_convex vs -> (3 <= length vs)%nat ->
  length fl = length vs -> (length vs <= fuel + 2)%nat ->
  ((3 < length vs)%nat -> forall k, (k < length vs)%nat -> nth k fl false = true) ->
  exists us trs, triangulate_loop (O := RO) fuel vs fl ts = Some (Ok (ts ++ us)) /\
    Forall (fun t : Polygon R => 0 < shoelace (vertices t)) us /\
    Forall2 (fun (t : Polygon R) tr => vertices t = tr) us trs /\
    sum (map shoelace trs) = shoelace vs.
Proof.
  induction fuel as [|fuel IH]; intros vs fl ts C Hn Hl Hf K; [lia|].
  cbn [triangulate_loop].
  match goal with |- context [Nat.ltb 3 ?k] => destruct (Nat.ltb_spec 3 k) as [L|L] end.
  - change (3 < length vs)%nat in L. specialize (K L).
    assert (Fe : exists v, find_ear fl 0 = Some v).
    { destruct (find_ear fl 0) as [v|] eqn:E; [now exists v|].
      exfalso. apply (proj1 (find_ear_none fl 0) E 0%nat). rewrite (nth_error_nth' fl false) by lia.
      f_equal. apply K. lia. }
    destruct Fe as (v & E). rewrite E.
    destruct (find_ear_some _ _ _ E) as (k & Ek & Nk). simpl in Ek. subst k.
    assert (Hv : (v < length vs)%nat) by (rewrite <- Hl; apply nth_error_Some; congruence).
    destruct (clip_ear_ok (O := RO) vs fl v L Hl Hv) as (t & fl' & Cl & T & L' & Fl).
    rewrite Cl.
    assert (Lv : length (remove_at v vs) = (length vs - 1)%nat) by (now apply remove_at_length).
    pose proof (convex_remove vs C v) as C'.
    destruct (IH (remove_at v vs) fl' (ts ++ [t])) as (us & trs & R1 & R2 & R3 & R4); [exact C'|lia|exact L'|lia| |].
    { intros L2 k Hk. rewrite Fl.
      destruct (shift_nxt_prv (length vs) v L Hv) as (A1 & A3 & _).
      match goal with |- context [Nat.eqb k ?s] => destruct (Nat.eqb_spec k s) as [|_] end.
      { refine (convex_ear _ C' _ L2 _). rewrite Lv. exact A3. }
      match goal with |- context [Nat.eqb k ?s] => destruct (Nat.eqb_spec k s) as [|_] end.
      { refine (convex_ear _ C' _ L2 _). rewrite Lv. exact A1. }
      rewrite remove_at_nth. apply K. apply shift_range; [exact Hv|lia]. }
    set (tr := [vtx vs (prv (length vs) v); vtx vs v; vtx vs (nxt (length vs) v)]).
    assert (Pos : 0 < shoelace tr).
    { assert (Es : shoelace tr = cross (vtx vs (prv (length vs) v)) (vtx vs v) (vtx vs (prv (length vs) v)) (vtx vs (nxt (length vs) v)))
        by (unfold tr, shoelace, cross; simpl; ring).
      rewrite Es. apply convex_cyclic; auto using prv_lt, nxt_lt.
      unfold cyclic, nxt. rewrite prv_cases.
      destruct (Nat.eqb_spec (S v) (length vs)), (Nat.eqb_spec v 0); lia. }
    assert (Vt : vertices t = tr).
    { destruct (polygon_new_spec _ _ T) as ([W|W] & P & _ & _); [exact W|].
      rewrite W in P. change (0 <= shoelace (rev tr)) in P. rewrite shoelace_rev in P. lra. }
    exists (t :: us), (tr :: trs). split.
    { rewrite <- app_assoc in R1. exact R1. }
    split; [|split].
    + constructor; [|exact R2]. change (0 < shoelace (@vertices R t)). change (@eq (list point) (@vertices R t) tr) in Vt. now rewrite Vt.
    + now constructor.
    + unfold sum in *. cbn [map fold_right]. rewrite R4, (shoelace_remove vs v Hn Hv).
      f_equal. unfold tr, shoelace, cross; simpl. ring.
  - change (length vs <= 3)%nat in L. exists [MkPolygon vs], [vs]. split; [reflexivity|]. split; [|split].
    + constructor; [|constructor]. destruct vs as [|a [|b [|c [|d vs]]]]; simpl in *; try lia.
      assert (P : 0 < cross a b a c) by (apply (C 0 1 2)%nat; simpl; lia).
      unfold shoelace, cross in *; simpl. lra.
    + constructor; [reflexivity|constructor].
    + unfold sum; simpl. apply Rplus_0_r.
Qed.

Theorem convex_triangulate : forall p : Polygon R, strictly_convex (vertices p) -> (3 <= length (vertices p))%nat ->
  exists ts, (forall fuel, (length (vertices p) <= fuel)%nat -> triangulate (O := RO) fuel p = Some (Ok ts)) /\
    length ts = (length (vertices p) - 2)%nat /\
    (forall t, In t ts -> length (vertices t) = 3%nat /\ 0 < shoelace (vertices t) /\
        forall q, In q (vertices t) -> In q (vertices p)) /\
    total ts = polygon_area (O := RO) p.
Proof.
  intros p C Hn.
  assert (X : exists ts trs, (forall fuel, (length (vertices p) <= fuel)%nat -> triangulate (O := RO) fuel p = Some (Ok ts)) /\
    Forall (fun t : Polygon R => 0 < shoelace (vertices t)) ts /\
    Forall2 (fun (t : Polygon R) tr => vertices t = tr) ts trs /\ sum (map shoelace trs) = shoelace (vertices p)).
  { unfold triangulate. match goal with |- context [Nat.eqb ?k 3] => destruct (Nat.eqb_spec k 3) as [E|E] end.
    - change (length (vertices p) = 3%nat) in E.
      exists [p], [vertices p]. split; [reflexivity|]. split; [|split].
      + constructor; [|constructor]. destruct p as [vs]; simpl in *. destruct vs as [|a [|b [|c [|d vs]]]]; simpl in *; try lia.
        assert (P : 0 < cross a b a c) by (apply (C 0 1 2)%nat; simpl; lia).
        unfold shoelace, cross in *; simpl. lra.
      + constructor; [reflexivity|constructor].
      + unfold sum; simpl. apply Rplus_0_r.
    - change (length (vertices p) <> 3%nat) in E.
      rewrite ear_flags_eq by (intros i Hi; apply in_seq in Hi; lia).
      set (fl := map (ear (O := RO) (vertices p)) (seq 0 (length (vertices p)))).
      destruct (convex_loop (length (vertices p)) (vertices p) fl []) as (us & trs & R1 & R2 & R3 & R4); try assumption.
      + unfold fl. now rewrite map_length, seq_length.
      + lia.
      + intros L k Hk. unfold fl. rewrite (nth_indep _ _ (ear (O := RO) (vertices p) 0)) by (now rewrite map_length, seq_length).
        rewrite map_nth, seq_nth by assumption. now apply convex_ear.
      + exists us, trs. split; [|auto]. intros fuel Hf. now apply (loop_mono (length (vertices p))). }
  destruct X as (ts & trs & R1 & R2 & R3 & R4). exists ts. split; [exact R1|].
  destruct (triangulate_ok _ _ _ Hn (R1 _ (le_n _))) as (ts' & E & L & V). inversion E; subst ts'.
  split; [exact L|]. split.
  - intros t Ht. destruct (V t Ht) as [V1 V2]. split; [exact V1|]. split; [|exact V2].
    rewrite Forall_forall in R2. now apply R2.
  - rewrite polygon_area_shoelace, <- R4. clear - R2 R3.
    assert (X : total ts = sum (map shoelace trs) / 2 /\ 0 <= sum (map shoelace trs)).
    { revert R2. induction R3 as [|t tr ts trs W R3 IH]; intros R2.
      - unfold total, sum; simpl. lra.
      - inversion R2; subst. destruct (IH H2) as [I1 I2].
        change (total (t :: ts)) with (polygon_area (O := RO) t + total ts).
        change (sum (map shoelace (vertices t :: trs))) with (shoelace (vertices t) + sum (map shoelace trs)).
        rewrite I1, polygon_area_shoelace, Rabs_right by lra. lra. }
    destruct X as [-> X]. rewrite Rabs_right by lra. reflexivity.
Qed.
