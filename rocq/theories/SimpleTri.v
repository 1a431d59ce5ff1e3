(** * Triangulation of every simple polygon, in exact arithmetic. *)
From Coq Require Import Reals List Bool Lra Lia Psatz ZArith Permutation Classical Arith.
From Verif Require Import Scalar Utils Polygon ListSpec PlaneSpec PolySpec Laws UtilsReal PolyArea PolyDiag PolyTri PolyConvex
  Winding SimplePoly SimpleWinding SimpleSplit SimpleGlue SimpleMain SimpleChord SimpleJordan SimpleEar.
Import ListNotations.
Local Open Scope R_scope.
Local Notation cross := PlaneSpec.cross.

(** ** Edges by index *)
Lemma path_index : forall (l : list point) p q, In (p, q) (path l) <->
  exists k, (S k < length l)%nat /\ p = vtx l k /\ q = vtx l (S k).
Proof.
  intros l p q. unfold vtx. induction l as [|a l IH].
  - simpl. split; [tauto|]. intros (k & K & _). lia.
  - destruct l as [|b l].
    + simpl. split; [tauto|]. intros (k & K & _). lia.
    + change (path (a :: b :: l)) with ((a, b) :: path (b :: l)). cbn [In]. rewrite IH. split.
      * intros [H|(k & K & -> & ->)].
        -- inversion H; subst. exists 0%nat. simpl. split; [lia|auto].
        -- exists (S k). split; [simpl in *; lia|]. split; reflexivity.
      * intros ([|k] & K & -> & ->); [left; reflexivity|right]. exists k. split; [simpl in *; lia|]. split; reflexivity.
Qed.

Lemma edge_index : forall (vs : list point) p q, In (p, q) (edges_of vs) <->
  exists k, (k < length vs)%nat /\ p = vtx vs k /\ q = vtx vs (nxt (length vs) k).
Proof.
  intros [|a vs] p q; [simpl; split; [tauto|intros (k & K & _); simpl in K; lia]|].
  unfold edges_of. rewrite path_index. set (l := a :: vs).
  assert (L : length (l ++ [a]) = S (length l)) by (rewrite app_length; simpl; lia).
  assert (V1 : forall k, (k < length l)%nat -> vtx (l ++ [a]) k = vtx l k) by (intros k K; now apply app_nth1).
  assert (V2 : forall k, (k < length l)%nat -> vtx (l ++ [a]) (S k) = vtx l (nxt (length l) k)).
  { intros k K. unfold nxt. destruct (Nat.eqb_spec (S k) (length l)) as [E|E].
    - unfold vtx. rewrite app_nth2 by lia. rewrite E, Nat.sub_diag. reflexivity.
    - apply V1. lia. }
  split; intros (k & K & -> & ->); exists k; (split; [lia|]).
  - rewrite V1, V2 by lia. auto.
  - rewrite V1, V2 by lia. auto.
Qed.

Lemma edge_next : forall (vs : list point) k, (k < length vs)%nat -> In (vtx vs k, vtx vs (nxt (length vs) k)) (edges_of vs).
Proof. intros vs k K. apply edge_index. now exists k. Qed.
Lemma edge_prev : forall (vs : list point) k, (k < length vs)%nat -> In (vtx vs (prv (length vs) k), vtx vs k) (edges_of vs).
Proof. intros vs k K. apply edge_index. exists (prv (length vs) k). rewrite nxt_prv by exact K. auto using prv_lt. Qed.

Lemma vtx_inj : forall (vs : list point) i j, NoDup vs -> (i < length vs)%nat -> (j < length vs)%nat -> vtx vs i = vtx vs j -> i = j.
Proof. intros vs i j N Hi Hj E. exact (proj1 (NoDup_nth vs (P2 0 0)) N i j Hi Hj E). Qed.
Lemma vtx_in : forall (vs : list point) i, (i < length vs)%nat -> In (vtx vs i) vs.
Proof. intros vs i H. now apply nth_In. Qed.
Lemma in_vtx : forall (vs : list point) p, In p vs -> exists i, (i < length vs)%nat /\ p = vtx vs i.
Proof. intros vs p H. destruct (In_nth vs p (P2 0 0) H) as (i & Hi & E). exists i. auto. Qed.

(** ** The model's tests are the geometric notions *)
Lemma cone_ccw : forall a0 a a1 b : point, cone (O := RO) a0 a a1 b = true <-> ccw a a1 b a0.
Proof.
  intros a0 a a1 b. unfold cone, ccw.
  assert (E1 : ar b a a1 = ar a a1 b) by (unfold ar, PlaneSpec.cross; ring).
  assert (E2 : ar a b a1 = - ar a a1 b) by (unfold ar, PlaneSpec.cross; ring).
  assert (E3 : ar b a a0 = - ar a b a0) by (unfold ar, PlaneSpec.cross; ring).
  assert (E4 : ar a a0 a1 = - ar a a1 a0) by (unfold ar, PlaneSpec.cross; ring).
  rewrite E4. destruct (left_on (O := RO) a a1 a0) eqn:L.
  - apply left_on_iff in L. change (0 <= ar a a1 a0) in L.
    rewrite andb_true_iff, !left_iff. change (0 < ar a b a0 /\ 0 < ar b a a1 <-> (0 < ar a a1 b /\ 0 < ar a b a0) \/
      (0 < ar a b a0 /\ 0 < - ar a a1 a0) \/ (0 < - ar a a1 a0 /\ 0 < ar a a1 b)). lra.
  - apply left_on_false in L. change (ar a a1 a0 < 0) in L.
    rewrite negb_true_iff, andb_false_iff, !left_on_false.
    change (ar a b a1 < 0 \/ ar b a a0 < 0 <-> (0 < ar a a1 b /\ 0 < ar a b a0) \/
      (0 < ar a b a0 /\ 0 < - ar a a1 a0) \/ (0 < - ar a a1 a0 /\ 0 < ar a a1 b)). lra.
Qed.

Lemma diag_internal : forall (vs : list point) i j, simple vs -> (i < length vs)%nat -> (j < length vs)%nat ->
  diag (O := RO) vs i j = true <-> internal vs (vtx vs i) (vtx vs j).
Proof.
  intros vs i j S Hi Hj. pose proof S as (L & N & _). set (n := length vs) in *. rewrite diag_true.
  match goal with |- context [length ?l] => change (length l) with n end.
  assert (NX : forall k, (k < n)%nat -> (nxt n k < n)%nat) by (intros; now apply nxt_lt).
  assert (PV : forall k, (k < n)%nat -> (prv n k < n)%nat) by (intros; now apply prv_lt).
  split.
  - intros (Nij & F & C1 & C2).
    change (cone (O := RO) (vtx vs (prv n i)) (vtx vs i) (vtx vs (nxt n i)) (vtx vs j) = true) in C1.
    change (cone (O := RO) (vtx vs (prv n j)) (vtx vs j) (vtx vs (nxt n j)) (vtx vs i) = true) in C2.
    apply cone_ccw in C1. apply cone_ccw in C2.
    destruct (ccw_not_same _ _ _ _ C1) as (A1 & A2 & _). destruct (ccw_not_same _ _ _ _ C2) as (B1 & B2 & _).
    split; [|split].
    + intros c d x He Xc Xi. apply edge_index in He. fold n in He. destruct He as (k & K & -> & ->).
      destruct (Nat.eq_dec k i) as [->|N1].
      { left. apply (diff_dir (vtx vs i) (vtx vs (nxt n i)) (vtx vs j)); auto. }
      destruct (Nat.eq_dec (nxt n k) i) as [E|N2].
      { rewrite E in Xc. left. apply (diff_dir (vtx vs i) (vtx vs (prv n i)) (vtx vs j)); auto.
        - intros X. apply A2. now apply samedir_sym.
        - apply on_segment_rev. replace (prv n i) with k; [exact Xc|]. rewrite <- E. symmetry. now apply prv_nxt. }
      apply on_segment_rev in Xi.
      destruct (Nat.eq_dec k j) as [->|N3].
      { right. apply (diff_dir (vtx vs j) (vtx vs (nxt n j)) (vtx vs i)); auto. }
      destruct (Nat.eq_dec (nxt n k) j) as [E|N4].
      { rewrite E in Xc. right. apply (diff_dir (vtx vs j) (vtx vs (prv n j)) (vtx vs i)); auto.
        - intros X. apply B2. now apply samedir_sym.
        - apply on_segment_rev. replace (prv n j) with k; [exact Xc|]. rewrite <- E. symmetry. now apply prv_nxt. }
      exfalso. apply on_segment_rev in Xi.
      assert (T : intersect (O := RO) (vtx vs i) (vtx vs j) (vtx vs k) (vtx vs (nxt n k)) = true).
      { apply intersect_complete. exists x. now split. }
      specialize (F k K N1 N2 N3 N4). match type of F with ?l = false => change (intersect (O := RO) (vtx vs i) (vtx vs j) (vtx vs k) (vtx vs (nxt n k)) = false) in F end.
      congruence.
    + intros a0 a1 H0 H1.
      replace a0 with (vtx vs (prv n i)) by (apply (prev_unique vs _ _ (vtx vs i) N); [now apply edge_prev|exact H0]).
      replace a1 with (vtx vs (nxt n i)) by (apply (next_unique vs (vtx vs i) _ _ N); [now apply edge_next|exact H1]).
      exact C1.
    + intros a0 a1 H0 H1.
      replace a0 with (vtx vs (prv n j)) by (apply (prev_unique vs _ _ (vtx vs j) N); [now apply edge_prev|exact H0]).
      replace a1 with (vtx vs (nxt n j)) by (apply (next_unique vs (vtx vs j) _ _ N); [now apply edge_next|exact H1]).
      exact C2.
  - intros (C & A & B).
    pose proof (A _ _ (edge_prev vs i Hi) (edge_next vs i Hi)) as K1. fold n in K1.
    pose proof (B _ _ (edge_prev vs j Hj) (edge_next vs j Hj)) as K2. fold n in K2.
    assert (Nij : vtx vs j <> vtx vs i) by (apply (ccw_neq _ _ _ _ K1)).
    split; [intros E; apply Nij; now rewrite E|]. split; [|split].
    + intros k K N1 N2 N3 N4. apply not_true_is_false. intros T.
      change (intersect (O := RO) (vtx vs i) (vtx vs j) (vtx vs k) (vtx vs (nxt n k)) = true) in T.
      pose proof (edge_next vs k K) as He. fold n in He.
      apply intersect_iff in T; [|congruence|exact (edge_neq vs _ _ S He)].
      destruct T as (x & X1 & X2).
      destruct (C _ _ x He X2 X1) as [E|E]; subst x.
      * destruct (vertex_on vs _ _ _ S (vtx_in vs i Hi) He X2) as [E|E]; apply (vtx_inj vs _ _ N) in E; auto.
      * destruct (vertex_on vs _ _ _ S (vtx_in vs j Hj) He X2) as [E|E]; apply (vtx_inj vs _ _ N) in E; auto.
    + apply cone_ccw. exact K1.
    + apply cone_ccw. exact K2.
Qed.

Lemma ear_is_ear : forall (vs : list point) i, simple vs -> (i < length vs)%nat ->
  ear (O := RO) vs i = true <-> is_ear vs (vtx vs i).
Proof.
  intros vs i S Hi. pose proof S as (_ & N & _).
  change (ear (O := RO) vs i) with (diag (O := RO) vs (prv (length vs) i) (nxt (length vs) i)).
  rewrite diag_internal by auto using prv_lt, nxt_lt. split.
  - intros I. exists (vtx vs (prv (length vs) i)), (vtx vs (nxt (length vs) i)).
    split; [now apply edge_prev|]. split; [now apply edge_next|exact I].
  - intros (u & w & Hu & Hw & I).
    replace (vtx vs (prv (length vs) i)) with u by (apply (prev_unique vs _ _ (vtx vs i) N); [exact Hu|now apply edge_prev]).
    replace (vtx vs (nxt (length vs) i)) with w by (apply (next_unique vs (vtx vs i) _ _ N); [exact Hw|now apply edge_next]).
    exact I.
Qed.

(** ** One clipping step *)
Section Step.
Variables (vs : list point) (v : nat).
Let n := length vs.
Let u := vtx vs (prv n v).
Let x := vtx vs v.
Let w := vtx vs (nxt n v).
Let vs' := remove_at v vs.
Hypothesis S : simple vs.
Hypothesis Q : pos vs.
Hypothesis L : (3 < n)%nat.
Hypothesis Hv : (v < n)%nat.
Hypothesis E : ear (O := RO) vs v = true.

Lemma st_shape : exists R, rot vs (w :: R ++ u :: [x]) /\ rot vs' (w :: R ++ [u]).
Proof.
  pose proof S as (_ & N & _).
  pose proof (nth_split_at _ (P2 0 0) vs v Hv) as Sp. fold (vtx vs v) in Sp. fold x in Sp.
  pose proof (remove_at_firstn _ v vs Hv) as Rm. fold vs' in Rm.
  set (l := firstn v vs) in *. set (m := skipn (Datatypes.S v) vs) in *. clearbody l m.
  assert (Lm : (3 <= length (m ++ l))%nat).
  { assert (Ln : n = length (l ++ x :: m)) by (now rewrite <- Sp). rewrite !app_length in *. simpl in Ln. lia. }
  assert (Sh : exists h R z, m ++ l = h :: R ++ [z]).
  { destruct (m ++ l) as [|h M]; [simpl in Lm; lia|].
    destruct (exists_last (l := M)) as (R & z & ->); [intros ->; simpl in Lm; lia|]. exists h, R, z. reflexivity. }
  destruct Sh as (h & R & z & Sh).
  assert (R1 : rot vs (h :: R ++ z :: [x])).
  { exists (l ++ [x]), m. split; [now rewrite Sp, <- app_assoc|].
    rewrite app_assoc, Sh. simpl. now rewrite <- app_assoc. }
  assert (R2 : rot vs' (h :: R ++ [z])) by (exists l, m; split; [exact Rm|now rewrite Sh]).
  assert (Ez : z = u).
  { apply (prev_unique vs z u x N); [|now apply edge_prev]. apply (rot_edges _ _ _ (rot_sym _ _ R1)).
    rewrite edges_split. apply in_or_app. right. now left. }
  assert (Eh : h = w).
  { apply (next_unique vs x h w N); [|now apply edge_next]. apply (rot_edges _ _ _ (rot_sym _ _ R1)).
    rewrite edges_split. apply in_or_app. right. right. now left. }
  subst z h. now exists R.
Qed.

Lemma st_internal : internal vs u w.
Proof.
  apply (diag_internal vs (prv n v) (nxt n v) S); [now apply prv_lt|now apply nxt_lt|exact E].
Qed.

Lemma st_facts : simple vs' /\ pos vs' /\ 0 < ar u x w /\
  (forall c, winding vs c = (winding [u; x; w] c + winding vs' c)%Z).
Proof.
  destruct st_shape as (R & R1 & R2). pose proof (internal_sym _ _ _ (rot_internal _ _ _ _ R1 st_internal)) as I.
  pose proof (rot_simple _ _ R1 S) as S1. pose proof (rot_pos _ _ R1 Q) as Q1.
  split; [|split; [|split]].
  - apply (rot_simple _ _ (rot_sym _ _ R2)). now apply (cl_simple u x w R).
  - apply (rot_pos _ _ (rot_sym _ _ R2)). now apply (cl_pos u x w R).
  - now apply (cl_turn u x w R).
  - intros c. rewrite (rot_winding _ _ c R1), (rot_winding _ _ c R2), winding_split.
    change ([x] ++ [w]) with [x; w]. lia.
Qed.

(** Vertices other than the two neighbours keep their status. *)
Lemma st_keep : (3 < length vs')%nat -> forall t, In t vs' -> t <> u -> t <> w -> is_ear vs t <-> is_ear vs' t.
Proof.
  intros L' t Ht Nu Nw. destruct st_shape as (R & R1 & R2).
  pose proof (internal_sym _ _ _ (rot_internal _ _ _ _ R1 st_internal)) as I.
  pose proof (rot_simple _ _ R1 S) as S1. pose proof (rot_pos _ _ R1 Q) as Q1.
  pose proof (cl_simple u x w R S1 I) as S2. destruct (proj2 S1) as (N1 & _). destruct (proj2 S2) as (N2 & _).
  assert (TR : In t R).
  { apply (rot_in _ _ _ R2) in Ht. destruct Ht as [Ht|Ht]; [congruence|].
    apply in_app_or in Ht. destruct Ht as [Ht|[Ht|[]]]; [exact Ht|congruence]. }
  assert (LR : (2 <= length R)%nat).
  { pose proof (rot_length _ _ R2) as X. simpl in X. rewrite app_length in X. simpl in X. lia. }
  set (P := w :: R ++ u :: [x]) in *. set (P1 := w :: R ++ [u]) in *.
  assert (K : forall t0 t1, In (t0, t) (edges_of P) -> In (t, t1) (edges_of P) ->
     In (t0, t) (edges_of P1) /\ In (t, t1) (edges_of P1) /\ (internal P t0 t1 <-> internal P1 t0 t1)).
  { intros t0 t1 H0 H1.
    pose proof (sp_at_x w u R [x] S1 (proj1 I) t t0 TR H0) as F0. pose proof (sp_at_x' w u R [x] S1 (proj1 I) t t1 TR H1) as F1.
    split; [apply sp_edge1; now left|]. split; [apply sp_edge1; now left|].
    apply (clip_internal u x w R S1 Q1 I t0 t t1 TR H0 H1).
    intros [-> ->].
    destruct R as [|r R']; [simpl in LR; lia|].
    assert (r = t).
    { apply (next_unique P w r t N1); [now left|exact H0]. }
    destruct (exists_last (l := R')) as (R'' & z & ->); [intros ->; simpl in LR; lia|].
    assert (z = t).
    { apply (prev_unique P z t u N1); [|exact H1]. apply sp_edge. left.
      change (w :: (r :: R'' ++ [z]) ++ [u]) with ((w :: r :: R'' ++ [z]) ++ [u]).
      replace ((w :: r :: R'' ++ [z]) ++ [u]) with ((w :: r :: R'') ++ z :: [u]) by (cbn [app]; now rewrite <- app_assoc).
      rewrite path_app. apply in_or_app. right. now left. }
    subst r z. unfold P in N1. inversion N1 as [|? ? _ N3]; subst. cbn [app] in N3. inversion N3 as [|? ? N4 _]; subst.
    apply N4. apply in_or_app. left. apply in_or_app. right. now left. }
  split.
  - intros (t0 & t1 & H0 & H1 & J). apply (rot_edges _ _ _ R1) in H0. apply (rot_edges _ _ _ R1) in H1.
    destruct (K t0 t1 H0 H1) as (G0 & G1 & KI). exists t0, t1.
    split; [now apply (rot_edges _ _ _ (rot_sym _ _ R2))|]. split; [now apply (rot_edges _ _ _ (rot_sym _ _ R2))|].
    apply (rot_internal _ _ _ _ (rot_sym _ _ R2)), KI. now apply (rot_internal _ _ _ _ R1).
  - intros (t0 & t1 & H0 & H1 & J). apply (rot_edges _ _ _ R2) in H0. apply (rot_edges _ _ _ R2) in H1.
    assert (TP : In t P) by (right; apply in_or_app; now left).
    destruct (prev_exists P t TP) as (s0 & G0). destruct (next_exists P t TP) as (s1 & G1).
    destruct (K s0 s1 G0 G1) as (F0 & F1 & KI).
    assert (s0 = t0) by (apply (prev_unique P1 _ _ t N2); assumption).
    assert (s1 = t1) by (apply (next_unique P1 t _ _ N2); assumption). subst s0 s1.
    exists t0, t1.
    split; [now apply (rot_edges _ _ _ (rot_sym _ _ R1))|]. split; [now apply (rot_edges _ _ _ (rot_sym _ _ R1))|].
    apply (rot_internal _ _ _ _ (rot_sym _ _ R1)), KI. now apply (rot_internal _ _ _ _ R2).
Qed.

(** The flags kept by the code are right. *)
Lemma st_flags : (3 < length vs')%nat -> forall k, (k < n - 1)%nat -> k <> shift (prv n v) v -> k <> shift (nxt n v) v ->
  ear (O := RO) vs' k = ear (O := RO) vs (if Nat.ltb k v then k else Datatypes.S k).
Proof.
  intros L' k Hk N1 N3. set (k' := if Nat.ltb k v then k else Datatypes.S k).
  assert (Hk' : (k' < n)%nat) by (now apply shift_range).
  assert (Lv : length vs' = (n - 1)%nat) by (now apply remove_at_length).
  assert (Ev : vtx vs' k = vtx vs k') by apply remove_at_nth.
  pose proof S as (_ & N & _). destruct st_facts as (S' & _).
  apply eq_true_iff_eq. rewrite (ear_is_ear vs' k S') by lia. rewrite (ear_is_ear vs k' S Hk').
  rewrite Ev. symmetry. apply st_keep; [exact L'|..].
  - rewrite <- Ev. apply vtx_in. lia.
  - intros X. apply (vtx_inj vs k' (prv n v) N Hk') in X; [|now apply prv_lt]. apply N1. rewrite <- X.
    unfold k', shift. destruct (Nat.ltb_spec k v); match goal with |- context [Nat.ltb ?a ?b] => destruct (Nat.ltb_spec a b) end; lia.
  - intros X. apply (vtx_inj vs k' (nxt n v) N Hk') in X; [|now apply nxt_lt]. apply N3. rewrite <- X.
    unfold k', shift. destruct (Nat.ltb_spec k v); match goal with |- context [Nat.ltb ?a ?b] => destruct (Nat.ltb_spec a b) end; lia.
Qed.
End Step.

(** ** Inside a polygon, inside a triangle *)
Lemma rot_off : forall P Q c, rot P Q -> off P c -> off Q c.
Proof. intros P Q c R O a b H. apply O. now apply (rot_edges _ _ _ (rot_sym _ _ R)). Qed.

Lemma ar_ends : forall a b, ar a b a = 0 /\ ar a b b = 0.
Proof. intros. unfold ar, PlaneSpec.cross. split; ring. Qed.

Section Ear.
Variables (u x w : point) (R : list point).
Let P := w :: R ++ u :: [x].
Let P1 := w :: R ++ [u].
Hypothesis S : simple P.
Hypothesis Q : pos P.
Hypothesis I : internal P w u.

(** Points of the ear, the cutting chord excepted, are off what remains. *)
Lemma ear_off : forall y, inT u x w y -> 0 < ar w u y -> off P1 y.
Proof.
  intros y Ty Py g h Hgh Xy. pose proof (cl_turn u x w R S Q I) as T.
  destruct (cl_ne u x w R S Q I) as (M1 & M2 & M3 & M4 & M5 & M6).
  apply sp_edge1 in Hgh. destruct Hgh as [Hgh|[-> ->]].
  2:{ destruct Xy as (t & _ & ->). rewrite ar_along in Py.
      destruct (ar_ends w u) as [E1 E2]. rewrite E1, E2 in Py. lra. }
  destruct (sp_ends1 w u R g h Hgh) as [Hg Hh].
  assert (Hgh' : In (g, h) (edges_of P)) by (apply sp_edge; now left).
  assert (Eux : In (u, x) (edges_of P)) by (apply sp_edge; right; now left).
  assert (Exw : In (x, w) (edges_of P)) by (apply sp_edge; right; right; now left).
  assert (Side : forall z, 0 < ar w u z -> on_segment g h z -> on_segment u x z \/ on_segment x w z -> False).
  { intros z Pz Xz [Xu|Xw].
    - destruct (proj2 (proj2 S) g h u x z Hgh' Eux Xz Xu) as [E|[[E1 E2]|[E1 E2]]].
      + subst g. destruct Hg as [Hg|Hg]; [congruence|tauto].
      + subst z h. rewrite (proj2 (ar_ends w u)) in Pz. lra.
      + subst g. destruct Hg as [Hg|Hg]; [congruence|tauto].
    - destruct (proj2 (proj2 S) g h x w z Hgh' Exw Xz Xw) as [E|[[E1 E2]|[E1 E2]]].
      + subst g. destruct Hg as [Hg|Hg]; [congruence|tauto].
      + rewrite E2 in Hh. destruct Hh as [Hh|Hh]; [congruence|tauto].
      + subst z. rewrite (proj1 (ar_ends w u)) in Pz. lra. }
  assert (Far : forall e, In e R -> 0 < ar w u e -> on_segment g h e -> False).
  { intros e He Pe Xe. destruct (tri_exit u x w y e T Ty (cl_empty u x w R S Q I e He)) as (z & Xz & Hz); [lra|].
    apply (Side z); [| |exact Hz].
    - destruct Xz as (t & Ht & ->). rewrite ar_along.
      destruct (Req_dec t 1) as [->|]; [lra|]. assert (0 < (1 - t) * ar w u y) by (apply Rmult_lt_0_compat; lra).
      assert (0 <= t * ar w u e) by (apply Rmult_le_pos; lra). lra.
    - destruct Xy as (a & Ha & ->), Xe as (b & Hb & ->), Xz as (t & Ht & ->).
      exists ((1 - t) * a + t * b). split; [split|].
      + assert (0 <= (1 - t) * a) by (apply Rmult_le_pos; lra). assert (0 <= t * b) by (apply Rmult_le_pos; lra). lra.
      + assert ((1 - t) * a <= (1 - t) * 1) by (apply Rmult_le_compat_l; lra).
        assert (t * b <= t * 1) by (apply Rmult_le_compat_l; lra). lra.
      + apply pt_eq; unfold along; simpl; ring. }
  assert (Pgh : 0 < ar w u g \/ 0 < ar w u h).
  { destruct Xy as (t & Ht & ->). rewrite ar_along in Py.
    destruct (Rlt_le_dec 0 (ar w u g)) as [|Lg]; [now left|right].
    destruct (Rlt_le_dec 0 (ar w u h)) as [|Lh]; [assumption|exfalso].
    assert (0 <= (1 - t) * - ar w u g) by (apply Rmult_le_pos; lra).
    assert (0 <= t * - ar w u h) by (apply Rmult_le_pos; lra). lra. }
  destruct Pgh as [Pg|Ph].
  - destruct Hg as [->|Hg]; [rewrite (proj1 (ar_ends w u)) in Pg; lra|].
    apply (Far g Hg Pg). apply on_seg_l.
  - destruct Hh as [->|Hh]; [rewrite (proj2 (ar_ends w u)) in Ph; lra|].
    apply (Far h Hh Ph). apply on_seg_r.
Qed.

Lemma ear_wn0 : forall y, inT u x w y -> 0 < ar w u y -> winding P1 y = 0%Z.
Proof.
  intros y Ty Py. pose proof (cl_turn u x w R S Q I) as T.
  assert (Tx : ar w u x = ar u x w) by (unfold ar, PlaneSpec.cross; ring).
  assert (W : winding P1 x = 0%Z).
  { assert (RP : rot P (u :: [x] ++ w :: R)) by (exists (w :: R), [u; x]; now split).
    apply (pc_x0 u w [x] R); [exact (rot_simple _ _ RP S)|exact (rot_pos _ _ RP Q)|exact (internal_sym _ _ _ (rot_internal _ _ _ _ RP I))|now left]. }
  rewrite <- W. apply winding_move. intros [g h] z He Xz Xe.
  assert (Tz : inT u x w z /\ 0 < ar w u z).
  { destruct Xz as (t & Ht & ->). destruct Ty as (T1 & T2 & T3). unfold inT. rewrite !ar_along.
    destruct (ar_ends u x) as [_ E1], (ar_ends x w) as [E2 _]. rewrite E1, E2, Tx.
    assert (0 <= (1 - t) * ar u x y) by (apply Rmult_le_pos; lra).
    assert (0 <= (1 - t) * ar x w y) by (apply Rmult_le_pos; lra).
    assert (0 < (1 - t) * ar w u y + t * ar u x w).
    { destruct (Req_dec t 0) as [->|]; [lra|]. assert (0 < t * ar u x w) by (apply Rmult_lt_0_compat; lra).
      assert (0 <= (1 - t) * ar w u y) by (apply Rmult_le_pos; lra). lra. }
    lra. }
  destruct Tz as [Tz Pz]. exact (ear_off z Tz Pz g h He Xe).
Qed.

(** The ear lies inside. *)
Lemma ear_inside : forall p, in_open [u; x; w] p -> inside P p /\ off P1 p /\ winding P1 p = 0%Z.
Proof.
  intros p (H1 & H2 & H3).
  assert (Tp : inT u x w p) by (unfold inT; lra).
  pose proof (ear_off p Tp H3) as O1. pose proof (ear_wn0 p Tp H3) as W1.
  split; [|now split]. split.
  - intros a b H X. apply sp_edge in H. destruct H as [H|[H|[H|[]]]].
    + apply (O1 a b); [apply sp_edge1; now left|exact X].
    + inversion H; subst. destruct X as (t & _ & ->). rewrite ar_along in H1.
      destruct (ar_ends a b) as [E1 E2]. rewrite E1, E2 in H1. lra.
    + inversion H; subst. destruct X as (t & _ & ->). rewrite ar_along in H2.
      destruct (ar_ends a b) as [E1 E2]. rewrite E1, E2 in H2. lra.
  - unfold P. rewrite winding_split. fold P1. rewrite W1. cbn [app]. rewrite (tri_in u x w p H1 H2 H3). reflexivity.
Qed.

(** What is inside the rest is inside, outside the ear. *)
Lemma rest_inside : forall p, inside P1 p -> inside P p /\ ~ inT u x w p.
Proof.
  intros p (O1 & W1). pose proof (cl_turn u x w R S Q I) as T.
  assert (NT : ~ inT u x w p).
  { intros Tp. pose proof Tp as (T1 & T2 & T3). destruct (Rle_lt_or_eq_dec _ _ T3) as [T4|T4].
    - rewrite (ear_wn0 p Tp T4) in W1. discriminate.
    - apply (O1 u w); [apply sp_edge1; now right|]. apply on_segment_rev.
      apply (on_side w u x); auto. unfold ar, PlaneSpec.cross in *; lra. }
  split; [|exact NT]. split.
  - intros a b H X. apply sp_edge in H. destruct H as [H|H].
    { apply (O1 a b); [apply sp_edge1; now left|exact X]. }
    apply NT. assert (Tx : ar w u x = ar u x w) by (unfold ar, PlaneSpec.cross; ring).
    assert (Tu : ar x w u = ar u x w) by (unfold ar, PlaneSpec.cross; ring).
    destruct H as [H|[H|[]]]; inversion H; subst; destruct X as (t & Ht & ->); unfold inT; rewrite !ar_along.
    + destruct (ar_ends a b) as [E1 E2]. destruct (ar_ends b w) as [E3 _]. destruct (ar_ends w a) as [_ E4].
      rewrite E1, E2, E3, E4, Tx, Tu.
      assert (0 <= (1 - t) * ar a b w) by (apply Rmult_le_pos; lra). assert (0 <= t * ar a b w) by (apply Rmult_le_pos; lra). lra.
    + destruct (ar_ends a b) as [E1 E2]. destruct (ar_ends u a) as [_ E3]. destruct (ar_ends b u) as [E4 _].
      rewrite E1, E2, E3, E4, Tx.
      assert (0 <= (1 - t) * ar u a b) by (apply Rmult_le_pos; lra). assert (0 <= t * ar u a b) by (apply Rmult_le_pos; lra). lra.
  - unfold P. rewrite winding_split. fold P1. rewrite W1. cbn [app].
    rewrite tri_out; [reflexivity|exact T|]. unfold inT in NT.
    destruct (Rlt_le_dec (ar u x p) 0); [tauto|]. destruct (Rlt_le_dec (ar x w p) 0); [tauto|].
    destruct (Rlt_le_dec (ar w u p) 0); tauto.
Qed.

(** What is inside is in the ear, inside the rest, or on the chord. *)
Lemma inside_cases : forall p, inside P p -> inT u x w p \/ inside P1 p.
Proof.
  intros p (O & W). pose proof (cl_turn u x w R S Q I) as T.
  destruct (classic (inT u x w p)) as [Tp|NT]; [now left|right]. split.
  - intros a b H X. apply sp_edge1 in H. destruct H as [H|[-> ->]].
    + apply (O a b); [apply sp_edge; now left|exact X].
    + apply NT. destruct X as (t & Ht & ->). unfold inT. rewrite !ar_along.
      destruct (ar_ends w u) as [E1 E2]. destruct (ar_ends u x) as [E3 _]. destruct (ar_ends x w) as [_ E4].
      assert (Tu : ar x w u = ar u x w) by (unfold ar, PlaneSpec.cross; ring).
      rewrite E1, E2, E3, E4, Tu.
      assert (0 <= (1 - t) * ar u x w) by (apply Rmult_le_pos; lra). assert (0 <= t * ar u x w) by (apply Rmult_le_pos; lra). lra.
  - unfold P in W. rewrite winding_split in W. fold P1 in W. cbn [app] in W.
    rewrite tri_out in W; [lia|exact T|]. unfold inT in NT.
    destruct (Rlt_le_dec (ar u x p) 0); [tauto|]. destruct (Rlt_le_dec (ar x w p) 0); [tauto|].
    destruct (Rlt_le_dec (ar w u p) 0); tauto.
Qed.

Lemma ear_tiling : forall ts, tiling P1 ts -> tiling P ([u; x; w] :: ts).
Proof.
  intros ts (A & B & C). split; [|split].
  - intros t p [<-|Ht] Hp; [now apply ear_inside|]. apply rest_inside. now apply (A t).
  - constructor; [|exact B]. rewrite Forall_forall. intros t Ht p H1 H2.
    destruct (ear_inside p H1) as (_ & _ & W). pose proof (proj2 (A t p Ht H2)). lia.
  - intros p Hp. destruct (inside_cases p Hp) as [Tp|Hp'].
    + exists [u; x; w]. split; [now left|]. exact Tp.
    + destruct (C p Hp') as (t & Ht & Ct). exists t. split; [now right|exact Ct].
Qed.
End Ear.

Lemma rot_inside : forall P Q c, rot P Q -> inside P c -> inside Q c.
Proof. intros P Q c R (O & W). split; [now apply (rot_off P)|]. now rewrite <- (rot_winding _ _ c R). Qed.
Lemma rot_tiling : forall P Q ts, rot P Q -> tiling P ts -> tiling Q ts.
Proof.
  intros P Q ts R (A & B & C). split; [|split; [exact B|]].
  - intros t p Ht Hp. apply (rot_inside P Q p R). now apply (A t).
  - intros p Hp. apply C. now apply (rot_inside Q P p (rot_sym _ _ R)).
Qed.

Lemma tri_tiling : forall a b c, 0 < ar a b c -> tiling [a; b; c] [[a; b; c]].
Proof.
  intros a b c T. split; [|split].
  - intros t p [<-|[]] (H1 & H2 & H3). split; [|now apply tri_in].
    intros e f [H|[H|[H|[]]]] (s & _ & X); inversion H; subst; rewrite ar_along in *;
      destruct (ar_ends e f) as [E1 E2]; rewrite E1, E2 in *; lra.
  - constructor; [constructor|constructor].
  - intros p (O & W). exists [a; b; c]. split; [now left|]. cbn [in_closed].
    destruct (Rlt_le_dec (ar a b p) 0); [rewrite tri_out in W by (auto); discriminate|].
    destruct (Rlt_le_dec (ar b c p) 0); [rewrite tri_out in W by (auto); discriminate|].
    destruct (Rlt_le_dec (ar c a p) 0); [rewrite tri_out in W by (auto); discriminate|]. auto.
Qed.

(** ** Orientation and area *)
Lemma step_exists : forall vs : list point, simple vs -> pos vs -> (3 < length vs)%nat ->
  exists v, (v < length vs)%nat /\ ear (O := RO) vs v = true.
Proof.
  intros vs S Q L. pose proof (edge_next vs 0 ltac:(lia)) as He.
  destruct (ear_exists vs _ _ S Q L He) as (p & Hp & _ & _ & Ep).
  destruct (in_vtx vs p Hp) as (v & Hv & ->). exists v. split; [exact Hv|]. now apply ear_is_ear.
Qed.

Theorem pos_shoelace : forall vs, simple vs -> pos vs -> 0 < shoelace vs.
Proof.
  assert (G : forall n vs, (length vs <= n)%nat -> simple vs -> pos vs -> 0 < shoelace vs).
  { induction n as [|n IH]; intros vs Ln S Q; [destruct S; lia|].
    destruct (Nat.le_gt_cases (length vs) 3) as [L|L].
    - pose proof S as (L3 & _). destruct vs as [|a [|b [|c [|d vs]]]]; simpl in L, L3; try lia.
      pose proof (tri_pos_inv a b c S Q) as T. unfold ar, PlaneSpec.cross in T. unfold shoelace; simpl. lra.
    - destruct (step_exists vs S Q L) as (v & Hv & E).
      destruct (st_facts vs v S Q L Hv E) as (S' & Q' & T & _).
      rewrite (shoelace_remove vs v (proj1 S) Hv).
      assert (0 < shoelace (remove_at v vs)) by (apply IH; [rewrite remove_at_length; lia|exact S'|exact Q']).
      unfold ar in T. lra. }
  intros vs. now apply (G (length vs)).
Qed.

Theorem shoelace_pos : forall vs, simple vs -> 0 <= shoelace vs -> pos vs.
Proof.
  intros vs S A. destruct (simple_oriented vs S) as [Q|Q]; [exact Q|exfalso].
  pose proof (pos_shoelace (rev vs) (simple_rev vs S) Q) as B. rewrite shoelace_rev in B. lra.
Qed.

(** ** The loop *)
Definition triangles (trs : list (list point)) : Prop :=
  Forall (fun t => exists a b c, t = [a; b; c] /\ 0 < ar a b c) trs.

Lemma tri_shoelace : forall a b c : point, shoelace [a; b; c] = ar a b c.
Proof. intros. unfold shoelace, ar, PlaneSpec.cross; simpl. ring. Qed.

Lemma simple_loop : forall fuel (vs : list point) fl ts, simple vs -> pos vs ->
  length fl = length vs -> (length vs <= fuel + 2)%nat ->
  ((3 < length vs)%nat -> forall k, (k < length vs)%nat -> nth k fl false = ear (O := RO) vs k) ->
  exists us, triangulate_loop (O := RO) fuel vs fl ts = Some (Ok (ts ++ us)) /\
    triangles (map vertices us) /\ tiling vs (map vertices us) /\
    sum (map shoelace (map vertices us)) = shoelace vs.
Proof.
  induction fuel as [|fuel IH]; intros vs fl ts S Q Hl Hf K; [destruct S; lia|].
  pose proof S as (Hn & _).
  cbn [triangulate_loop].
  match goal with |- context [Nat.ltb 3 ?k] => destruct (Nat.ltb_spec 3 k) as [L|L] end.
  - change (3 < length vs)%nat in L. specialize (K L).
    assert (Fe : exists v, find_ear fl 0 = Some v).
    { destruct (find_ear fl 0) as [v|] eqn:E; [now exists v|].
      exfalso. destruct (step_exists vs S Q L) as (v & Hv & Ev).
      apply (proj1 (find_ear_none fl 0) E v). rewrite (nth_error_nth' fl false) by lia.
      f_equal. rewrite K; assumption. }
    destruct Fe as (v & E). rewrite E.
    destruct (find_ear_some _ _ _ E) as (k & Ek & Nk). simpl in Ek. subst k.
    assert (Hv : (v < length vs)%nat) by (rewrite <- Hl; apply nth_error_Some; congruence).
    assert (Ev : ear (O := RO) vs v = true).
    { rewrite <- (K v Hv). now apply nth_error_nth. }
    destruct (clip_ear_ok (O := RO) vs fl v L Hl Hv) as (t & fl' & Cl & T & L' & Fl).
    rewrite Cl.
    assert (Lv : length (remove_at v vs) = (length vs - 1)%nat) by (now apply remove_at_length).
    destruct (st_facts vs v S Q L Hv Ev) as (S' & Q' & Pos & _).
    destruct (IH (remove_at v vs) fl' (ts ++ [t])) as (us & R1 & R2 & R3 & R4); [exact S'|exact Q'|exact L'|lia| |].
    { intros L2 k Hk. rewrite Fl.
      match goal with |- context [Nat.eqb k ?s] => destruct (Nat.eqb_spec k s) as [X|N3] end; [now rewrite <- X|].
      match goal with |- context [Nat.eqb k ?s] => destruct (Nat.eqb_spec k s) as [X|N1] end; [now rewrite <- X|].
      rewrite remove_at_nth. rewrite K by (apply shift_range; [exact Hv|lia]).
      symmetry. apply (st_flags vs v S Q L Hv Ev L2); [lia|exact N1|exact N3]. }
    set (u := vtx vs (prv (length vs) v)) in *. set (w := vtx vs (nxt (length vs) v)) in *.
    set (x := vtx vs v) in *.
    assert (Vt : vertices t = [u; x; w]).
    { destruct (polygon_new_spec _ _ T) as ([W|W] & P & _ & _); [exact W|].
      rewrite W in P. change (0 <= shoelace (rev [u; x; w])) in P. rewrite shoelace_rev, tri_shoelace in P. lra. }
    exists (t :: us). split.
    { rewrite <- app_assoc in R1. exact R1. }
    change (map vertices (t :: us)) with (@vertices R t :: map (@vertices R) us).
    change (@eq (list point) (@vertices R t) [u; x; w]) in Vt. rewrite Vt. split; [|split].
    + constructor; [|exact R2]. now exists u, x, w.
    + destruct (st_shape vs v S L Hv) as (R & Q1 & Q2). fold u x w in Q1, Q2.
      apply (rot_tiling _ _ _ (rot_sym _ _ Q1)). apply ear_tiling.
      * exact (rot_simple _ _ Q1 S).
      * exact (rot_pos _ _ Q1 Q).
      * apply internal_sym. apply (rot_internal _ _ _ _ Q1). now apply st_internal.
      * apply (rot_tiling _ _ _ Q2). exact R3.
    + transitivity (shoelace [u; x; w] + shoelace (remove_at v vs)); [now rewrite <- R4|].
      rewrite (shoelace_remove vs v Hn Hv). f_equal. apply tri_shoelace.
  - change (length vs <= 3)%nat in L.
    destruct vs as [|a [|b [|c [|d vs]]]]; simpl in L, Hn; try lia.
    pose proof (tri_pos_inv a b c S Q) as T.
    exists [MkPolygon [a; b; c]]. split; [reflexivity|]. cbn [map vertices]. split; [|split].
    + constructor; [|constructor]. now exists a, b, c.
    + now apply tri_tiling.
    + unfold sum; simpl. apply Rplus_0_r.
Qed.

Lemma pos_area : forall t : Polygon R, 0 < shoelace (@vertices R t) ->
  @eq R (polygon_area (O := RO) t) (shoelace (@vertices R t) / 2).
Proof. intros t H. rewrite polygon_area_shoelace, Rabs_pos_eq by lra. reflexivity. Qed.

Theorem simple_triangulate : forall p : Polygon R, simple (vertices p) -> 0 <= shoelace (vertices p) ->
  exists ts, (forall fuel, (length (vertices p) <= fuel)%nat -> triangulate (O := RO) fuel p = Some (Ok ts)) /\
    length ts = (length (vertices p) - 2)%nat /\
    (forall t, In t ts -> length (vertices t) = 3%nat /\ 0 < shoelace (vertices t) /\
        forall q, In q (vertices t) -> In q (vertices p)) /\
    total ts = polygon_area (O := RO) p /\
    tiling (vertices p) (map vertices ts).
Proof.
  intros p S A. pose proof (shoelace_pos _ S A) as Q. pose proof S as (Hn & _).
  assert (X : exists ts, (forall fuel, (length (vertices p) <= fuel)%nat -> triangulate (O := RO) fuel p = Some (Ok ts)) /\
    triangles (map vertices ts) /\ tiling (vertices p) (map vertices ts) /\ sum (map shoelace (map vertices ts)) = shoelace (vertices p)).
  { unfold triangulate. match goal with |- context [Nat.eqb ?k 3] => destruct (Nat.eqb_spec k 3) as [E|E] end.
    - change (length (vertices p) = 3%nat) in E. exists [p]. split; [reflexivity|].
      destruct p as [vs]. cbn [vertices map] in *. destruct vs as [|a [|b [|c [|d vs]]]]; simpl in E; try lia.
      pose proof (tri_pos_inv a b c S Q) as T. split; [|split].
      + constructor; [|constructor]. now exists a, b, c.
      + now apply tri_tiling.
      + unfold sum; simpl. apply Rplus_0_r.
    - change (length (vertices p) <> 3%nat) in E.
      rewrite ear_flags_eq by (intros i Hi; apply in_seq in Hi; lia).
      set (fl := map (ear (O := RO) (vertices p)) (seq 0 (length (vertices p)))).
      destruct (simple_loop (length (vertices p)) (vertices p) fl []) as (us & R1 & R2 & R3 & R4); try assumption.
      + unfold fl. now rewrite map_length, seq_length.
      + lia.
      + intros L k Hk. unfold fl. rewrite (nth_indep _ _ (ear (O := RO) (vertices p) 0)) by (now rewrite map_length, seq_length).
        rewrite map_nth, seq_nth by assumption. reflexivity.
      + exists us. split; [|auto]. intros fuel Hf. now apply (loop_mono (length (vertices p))). }
  destruct X as (ts & R1 & R2 & R3 & R4). exists ts. split; [exact R1|].
  destruct (triangulate_ok _ _ _ Hn (R1 _ (le_n _))) as (ts' & E & L & V). inversion E; subst ts'.
  assert (Pt : forall t, In t ts -> 0 < shoelace (vertices t)).
  { intros t Ht. unfold triangles in R2. rewrite Forall_forall in R2.
    destruct (R2 (vertices t)) as (a & b & c & -> & T); [now apply in_map|]. now rewrite tri_shoelace. }
  split; [exact L|]. split; [|split; [|exact R3]].
  - intros t Ht. destruct (V t Ht) as [V1 V2]. split; [exact V1|]. split; [|exact V2]. now apply Pt.
  - rewrite polygon_area_shoelace, <- R4. clear - Pt.
    assert (X : total ts = sum (map shoelace (map vertices ts)) / 2 /\ 0 <= sum (map shoelace (map vertices ts))).
    { induction ts as [|t ts IH]; [unfold total, sum; simpl; lra|].
      destruct IH as [I1 I2]; [intros t' Ht'; apply Pt; now right|].
      pose proof (Pt t (or_introl eq_refl)) as Pt0.
      change (total (t :: ts)) with (polygon_area (O := RO) t + total ts).
      change (sum (map shoelace (map vertices (t :: ts)))) with (shoelace (vertices t) + sum (map shoelace (map vertices ts))).
      rewrite I1, (pos_area t Pt0). change (0 < shoelace (@vertices R t)) in Pt0.
      set (z := shoelace (@vertices R t)) in *. set (y := sum _) in *. change (@eq R (z / 2 + y / 2) ((z + y) / 2) /\ 0 <= z + y). lra. }
    destruct X as [-> X]. rewrite Rabs_pos_eq by exact X. reflexivity.
Qed.

(** ** Off the boundary a point is inside or outside *)
Lemma off_move : forall P c d, off P c -> d <> c -> exists c', (exists t, 0 < t <= 1 /\ c' = along c d t) /\ off P c' /\ winding P c = winding P c'.
Proof.
  intros P c d O N. destruct (near_edges (edges_of P) c) as (r & R & H).
  destruct (near_along r c d R) as (t & T & Nt). exists (along c d t). split; [now exists t|].
  assert (K : forall s, 0 <= s <= t -> off P (along c d s)).
  { intros s Hs a b He X. apply (O a b He). exact (H (a, b) _ He (Nt s Hs) X). }
  split; [apply K; lra|]. apply winding_move. intros [a b] x He Xc Xe.
  destruct Xc as (s & Hs & ->). apply (K (s * t)) with (a := a) (b := b); [split; [apply Rmult_le_pos; lra|]|exact He|].
  - replace t with (1 * t) at 2 by ring. apply Rmult_le_compat_r; lra.
  - cbn [fst snd] in Xe. replace (along c d (s * t)) with (along c (along c d t) s); [exact Xe|].
    apply pt_eq; unfold along; simpl; ring.
Qed.

Theorem winding_01 : forall P c, simple P -> pos P -> off P c -> winding P c = 0%Z \/ winding P c = 1%Z.
Proof.
  assert (G : forall n P c, (length P <= n)%nat -> simple P -> pos P -> off P c -> winding P c = 0%Z \/ winding P c = 1%Z).
  { induction n as [|n IH]; intros P c Ln S Q O; [destruct S; lia|].
    destruct (Nat.le_gt_cases (length P) 3) as [L|L].
    - pose proof S as (L3 & _). destruct P as [|a1 [|b1 [|c1 [|d P]]]]; simpl in L, L3; try lia.
      pose proof (tri_pos_inv a1 b1 c1 S Q) as T.
      destruct (classic (inT a1 b1 c1 c)) as [(T1 & T2 & T3)|NT].
      + right. apply tri_in.
        * destruct (Rle_lt_or_eq_dec _ _ T1) as [|E]; [assumption|]. exfalso. apply (O a1 b1); [now left|].
          now apply (on_side a1 b1 c1).
        * destruct (Rle_lt_or_eq_dec _ _ T2) as [|E]; [assumption|]. exfalso. apply (O b1 c1); [right; now left|].
          apply (on_side b1 c1 a1); auto. now rewrite ar_rot.
        * destruct (Rle_lt_or_eq_dec _ _ T3) as [|E]; [assumption|]. exfalso. apply (O c1 a1); [right; right; now left|].
          apply (on_side c1 a1 b1); auto. now rewrite (ar_rot b1 c1 a1), (ar_rot a1 b1 c1).
      + left. apply tri_out; [exact T|]. unfold inT in NT.
        destruct (Rlt_le_dec (ar a1 b1 c) 0); [tauto|]. destruct (Rlt_le_dec (ar b1 c1 c) 0); [tauto|].
        destruct (Rlt_le_dec (ar c1 a1 c) 0); tauto.
    - destruct (step_exists P S Q L) as (v & Hv & E).
      destruct (st_shape P v S L Hv) as (R & R1 & R2).
      pose proof (internal_sym _ _ _ (rot_internal _ _ _ _ R1 (st_internal P v S Hv E))) as I.
      pose proof (rot_simple _ _ R1 S) as S1. pose proof (rot_pos _ _ R1 Q) as Q1.
      pose proof (rot_length _ _ R1) as L1.
      rewrite (rot_winding _ _ c R1). apply (rot_off _ _ c R1) in O. clear R1 R2 S Q E.
      set (u := vtx P (prv (length P) v)) in *. set (w := vtx P (nxt (length P) v)) in *. set (x := vtx P v) in *.
      clearbody u w x. set (P' := w :: R ++ u :: [x]) in *.
      pose proof (cl_turn u x w R S1 Q1 I) as T.
      assert (M : forall c, off P' c -> ~ on_segment u w c -> winding P' c = 0%Z \/ winding P' c = 1%Z).
      { intros q Oq Nq. destruct (classic (inT u x w q)) as [Tq|NT].
        - right. apply ear_inside; auto. pose proof Tq as (T1 & T2 & T3).
          assert (Ne1 : 0 <> ar u x q).
          { intros E0. apply (Oq u x); [apply sp_edge; right; now left|]. now apply (on_side u x w). }
          assert (Ne2 : 0 <> ar x w q).
          { intros E0. apply (Oq x w); [apply sp_edge; right; right; now left|]. apply (on_side x w u); auto. now rewrite ar_rot. }
          assert (Ne3 : 0 <> ar w u q).
          { intros E0. apply Nq. apply on_segment_rev. apply (on_side w u x); auto. now rewrite (ar_rot x w u), (ar_rot u x w). }
          cbn [in_open]. lra.
        - unfold P'. rewrite winding_split. cbn [app].
          rewrite (tri_out u x w q T).
          2:{ unfold inT in NT. destruct (Rlt_le_dec (ar u x q) 0); [tauto|]. destruct (Rlt_le_dec (ar x w q) 0); [tauto|].
              destruct (Rlt_le_dec (ar w u q) 0); tauto. }
          rewrite Z.add_0_r. apply IH.
          + simpl in L1. rewrite app_length in L1. simpl in L1. simpl. rewrite app_length. simpl. lia.
          + now apply (cl_simple u x w R).
          + now apply (cl_pos u x w R).
          + intros a b He X. apply sp_edge1 in He. destruct He as [He|[-> ->]]; [|tauto].
            apply (Oq a b); [apply sp_edge; now left|exact X]. }
      destruct (classic (on_segment u w c)) as [Xc|]; [|now apply M].
      (* on the chord: move off it, towards x *)
      assert (Ncx : x <> c).
      { intros ->. destruct Xc as (t & _ & E). assert (X : ar u c w = 0); [|lra].
        rewrite E. rewrite ar_swap23, ar_along. destruct (ar_ends u w) as [E1 E2]. rewrite E1, E2. ring. }
      destruct (off_move P' c x O Ncx) as (c' & (t & Ht & ->) & O' & W). rewrite W. apply M; [exact O'|].
      intros Xc'. assert (A0 : ar u w (along c x t) = 0).
      { destruct Xc' as (s & _ & E). rewrite E, ar_along. destruct (ar_ends u w) as [E1 E2]. rewrite E1, E2. ring. }
      assert (A1 : ar u w c = 0).
      { destruct Xc as (s & _ & E). rewrite E, ar_along. destruct (ar_ends u w) as [E1 E2]. rewrite E1, E2. ring. }
      rewrite ar_along, A1 in A0. rewrite (ar_swap23 u x w) in A0.
      assert (0 < t * ar u x w) by (apply Rmult_lt_0_compat; lra). lra. }
  intros P c. now apply (G (length P)).
Qed.

(** ** The diagonal test is exact *)
Theorem internal_iff : forall P a b, simple P -> pos P -> In a P -> In b P ->
  internal P a b <-> a <> b /\ (forall x, on_segment a b x -> x <> a -> x <> b -> inside P x).
Proof.
  intros P a b S Q Ha Hb. split.
  - intros I. split.
    + destruct (prev_exists P a Ha) as (a0 & H0). destruct (next_exists P a Ha) as (a1 & H1).
      pose proof (proj1 (proj2 I) a0 a1 H0 H1) as K. apply ccw_neq in K. intros ->. tauto.
    + intros x X Na Nb. split.
      * intros c d He Xe. destruct (proj1 I c d x He Xe X); contradiction.
      * now apply (internal_winding P a b x).
  - intros (N & H).
    assert (Cone : forall a b, In a P -> a <> b -> (forall x, on_segment a b x -> x <> a -> x <> b -> inside P x) ->
       forall a0 a1, In (a0, a) (edges_of P) -> In (a, a1) (edges_of P) -> ccw a a1 b a0).
    { clear a b Ha Hb N H. intros a b Ha N H a0 a1 H0 H1.
      destruct (classic (ccw a a1 b a0)) as [|NC]; [assumption|exfalso].
      set (c := along a b (1 / 2)).
      assert (Xc : on_segment a b c) by (exists (1 / 2); split; [lra|reflexivity]).
      assert (Nca : c <> a) by (apply along_neq; [congruence|lra]).
      assert (Ncb : c <> b).
      { intros E. apply N. unfold c, along in E. destruct a as [a_x a_y], b as [b_x b_y]; simpl in E.
        injection E as E1 E2. f_equal; lra. }
      destruct (H c Xc Nca Ncb) as (Oc & Wc).
      assert (OA : only_at P a c).
      { intros e f x He Xe Xx. destruct (classic (x = a)) as [|Nx]; [assumption|exfalso].
        assert (Xab : on_segment a b x) by (now apply (on_seg_sub a b c)).
        destruct (classic (x = b)) as [->|Nb].
        - destruct Xx as (s & Hs & E). unfold c in E. apply N.
          unfold along in E; destruct a as [a_x a_y], b as [b_x b_y]; simpl in E. injection E as E1 E2.
          assert (Z : 1 - s * (1 / 2) <> 0) by lra.
          f_equal; [apply (Rmult_eq_reg_l (1 - s * (1 / 2))); [|exact Z]; lra|apply (Rmult_eq_reg_l (1 - s * (1 / 2))); [|exact Z]; lra].
        - destruct (H x Xab Nx Nb) as (Ox & _). exact (Ox e f He Xe). }
      destruct (Q a0 a a1 c H0 H1 Nca OA) as [_ W0]. rewrite W0 in Wc; [discriminate|].
      intros K. apply NC. apply (ccw_unscale a a1 b a0 (1 / 2)); [lra|exact K]. }
    split; [|split].
    + intros c d x He Xe Xa. destruct (classic (x = a)) as [|Na]; [now left|]. destruct (classic (x = b)) as [|Nb]; [now right|].
      exfalso. exact (proj1 (H x Xa Na Nb) c d He Xe).
    + now apply Cone.
    + apply Cone; [exact Hb|congruence|]. intros x X N1 N2. apply H; auto. now apply on_segment_rev.
Qed.

(** ** Strictly convex polygons are simple *)
Lemma convex_simple : forall vs, strictly_convex vs -> (3 <= length vs)%nat -> simple vs.
Proof.
  intros vs C L. set (n := length vs) in *.
  assert (N : NoDup vs).
  { apply (NoDup_nth vs (P2 0 0)). intros i j Hi Hj E. destruct (Nat.eq_dec i j) as [|Ne]; [assumption|].
    exfalso. exact (convex_distinct vs C i j L Hi Hj Ne E). }
  split; [exact L|]. split; [exact N|].
  assert (Lft : forall k j, (k < n)%nat -> (j < n)%nat -> j <> k -> j <> nxt n k -> 0 < ar (vtx vs k) (vtx vs (nxt n k)) (vtx vs j)).
  { intros k j Hk Hj N1 N2. apply (convex_cyclic vs k (nxt n k) j C); auto using nxt_lt.
    unfold cyclic, nxt in *. destruct (Nat.eqb_spec (S k) n); lia. }
  intros a b c d x H1 H2 X1 X2. apply edge_index in H1. apply edge_index in H2. fold n in H1, H2.
  destruct H1 as (k & Hk & -> & ->), H2 as (l & Hl & -> & ->).
  destruct (Nat.eq_dec k l) as [->|Nkl]; [now left|right].
  assert (Z : ar (vtx vs k) (vtx vs (nxt n k)) x = 0).
  { destruct X1 as (s & _ & ->). rewrite ar_along. destruct (ar_ends (vtx vs k) (vtx vs (nxt n k))) as [-> ->]. ring. }
  destruct X2 as (t & Ht & ->). rewrite ar_along in Z.
  assert (Hl' : (nxt n l < n)%nat) by (now apply nxt_lt).
  assert (Nn : nxt n l <> nxt n k) by (intros E; apply Nkl; rewrite <- (prv_nxt n k Hk), <- (prv_nxt n l Hl); congruence).
  destruct (Nat.eq_dec l (nxt n k)) as [E|N1].
  - left. rewrite <- E in *.
    assert (Nlk : nxt n l <> k).
    { rewrite E. unfold nxt. destruct (Nat.eqb_spec (S k) n);
        match goal with |- context [Nat.eqb ?a ?b] => destruct (Nat.eqb_spec a b) end; lia. }
    pose proof (Lft k (nxt n l) Hk Hl' Nlk ltac:(rewrite <- E; congruence)) as P. rewrite <- E in P.
    rewrite (proj2 (ar_ends (vtx vs k) (vtx vs l))) in Z.
    assert (T0 : t = 0).
    { destruct (Req_dec t 0) as [|Nt]; [assumption|]. assert (0 < t * ar (vtx vs k) (vtx vs l) (vtx vs (nxt n l))) by (apply Rmult_lt_0_compat; lra). lra. }
    rewrite T0. split; [apply along0|reflexivity].
  - right. pose proof (Lft k l Hk Hl ltac:(congruence) N1) as P.
    destruct (Nat.eq_dec (nxt n l) k) as [E|N2].
    + rewrite E in *. rewrite (proj1 (ar_ends (vtx vs k) (vtx vs (nxt n k)))) in Z.
      assert (T1 : t = 1).
      { destruct (Req_dec t 1) as [|Nt]; [assumption|]. assert (0 < (1 - t) * ar (vtx vs k) (vtx vs (nxt n k)) (vtx vs l)) by (apply Rmult_lt_0_compat; lra). lra. }
      rewrite T1. split; [apply along1|reflexivity].
    + exfalso. pose proof (Lft k (nxt n l) Hk Hl' N2 Nn) as P'.
      assert (0 <= (1 - t) * ar (vtx vs k) (vtx vs (nxt n k)) (vtx vs l)) by (apply Rmult_le_pos; lra).
      assert (0 <= t * ar (vtx vs k) (vtx vs (nxt n k)) (vtx vs (nxt n l))) by (apply Rmult_le_pos; lra).
      destruct (Req_dec t 0) as [->|Nt]; [lra|].
      assert (0 < t * ar (vtx vs k) (vtx vs (nxt n k)) (vtx vs (nxt n l))) by (apply Rmult_lt_0_compat; lra). lra.
Qed.

(** Where there is an inside. *)
Lemma inside_exists : forall P, simple P -> pos P -> exists c, inside P c.
Proof.
  intros P S Q.
  destruct (simple_triangulate (MkPolygon P) S ltac:(left; now apply pos_shoelace)) as (ts & _ & Lt & V & _ & (A & _)).
  pose proof S as (L & _). cbn [vertices] in *. 
  destruct ts as [|t ts]; [simpl in Lt; lia|].
  destruct (V t (or_introl eq_refl)) as (L3 & Pt & _).
  set (vt := @vertices R t) in *. change (length vt = 3%nat) in L3. change (0 < shoelace vt) in Pt.
  assert (Ht : In vt (map (@vertices R) (t :: ts))) by (now left).
  destruct vt as [|a [|b [|c [|d l]]]]; simpl in L3; try lia. rewrite tri_shoelace in Pt.
  exists (along (along a b (1/2)) c (1/3)). apply (A [a; b; c]); [exact Ht|]. cbn [in_open].
  unfold ar, PlaneSpec.cross, along in *; simpl in *. lra.
Qed.
