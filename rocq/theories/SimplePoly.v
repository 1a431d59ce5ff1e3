(** * Simple polygons: cyclic order of directions, rotation and splitting along a chord *)
From Coq Require Import Reals List Bool Lra Lia Psatz ZArith Permutation.
From Verif Require Import Scalar Utils PlaneSpec PolySpec Laws UtilsReal PolyArea Winding.
Import ListNotations.
Local Open Scope R_scope.

(** ** Directions around a point *)
(** Turning counterclockwise around z from the direction of p, that of q is met strictly
    before that of r. *)
Definition ccw (z p q r : point) : Prop :=
  (0 < ar z p q /\ 0 < ar z q r) \/ (0 < ar z q r /\ 0 < ar z r p) \/ (0 < ar z r p /\ 0 < ar z p q).

(** p and q lie in the same direction from z. *)
Definition samedir (z p q : point) : Prop := exists k, 0 < k /\ q = along z p k.

Lemma ar_swap1 : forall z p q, ar z q p = - ar z p q.
Proof. intros. unfold ar, cross. ring. Qed.

Lemma ccw_rot : forall z p q r, ccw z p q r -> ccw z q r p.
Proof. unfold ccw. tauto. Qed.

Lemma ccw_asym : forall z p q r, ccw z p q r -> ~ ccw z r q p.
Proof.
  intros z p q r H K. unfold ccw in *.
  rewrite (ar_swap1 z q r), (ar_swap1 z p q), (ar_swap1 z r p) in K. lra.
Qed.

Lemma plucker : forall z p b c r,
  ar z p b * ar z c r = ar z p c * ar z b r + ar z p r * ar z c b.
Proof. intros. unfold ar, cross. ring. Qed.

Lemma pos_prod : forall x y, 0 < x -> 0 < y -> 0 < x * y.
Proof. intros. now apply Rmult_lt_0_compat. Qed.

Lemma ccw_trans : forall z p c b r, ccw z p c b -> ccw z p b r -> ccw z p c r.
Proof.
  intros z p c b r H K. pose proof (plucker z p b c r) as E. unfold ccw in *.
  rewrite (ar_swap1 z p b) in H. rewrite (ar_swap1 z p r) in *.
  destruct (Rlt_le_dec 0 (- ar z p r)) as [R|R].
  - destruct (Rlt_le_dec 0 (ar z p c)) as [Q|Q]; [right; right; split; assumption|].
    assert (C1 : 0 < ar z c b) by lra. assert (C2 : 0 < - ar z p b) by lra. assert (C3 : 0 < ar z b r) by lra.
    right; left. split; [|exact R].
    assert (0 < - ar z p r * ar z c b) by (now apply pos_prod).
    assert (ar z p c * ar z b r <= 0) by nra.
    assert (0 < - ar z p b * ar z c r) by lra. nra.
  - assert (C1 : 0 < ar z p b) by lra. assert (C2 : 0 < ar z b r) by lra.
    assert (C3 : 0 < ar z p c) by lra. assert (C4 : 0 < ar z c b) by lra.
    left. split; [exact C3|].
    assert (0 < ar z p c * ar z b r) by (now apply pos_prod).
    assert (0 <= ar z p r * ar z c b) by (apply Rmult_le_pos; lra).
    assert (0 < ar z p b * ar z c r) by lra. nra.
Qed.

Lemma samedir_sym : forall z p q, samedir z p q -> samedir z q p.
Proof.
  intros z p q (k & K & ->). exists (/ k). split; [now apply Rinv_0_lt_compat|].
  apply pt_eq; unfold along; simpl; field; lra.
Qed.

Lemma samedir_trans : forall z p q r, samedir z p q -> samedir z q r -> samedir z p r.
Proof.
  intros z p q r (k & K & ->) (l & L & ->). exists (l * k). split; [now apply pos_prod|].
  apply pt_eq; unfold along; simpl; ring.
Qed.

(** Collinear with z and not z: in the same or in opposite directions. *)
Lemma ar0_dir : forall z p q, p <> z -> q <> z -> ar z p q = 0 ->
  exists k, k <> 0 /\ q = along z p k.
Proof.
  intros z p q Np Nq E. unfold ar, cross in E.
  destruct (Req_dec (vx p - vx z) 0) as [X|X].
  - destruct (Req_dec (vy p - vy z) 0) as [Y|Y].
    { exfalso. apply Np. apply pt_eq; lra. }
    exists ((vy q - vy z) / (vy p - vy z)). split.
    + intros K. apply Nq. assert (vy q - vy z = 0).
      { apply (f_equal (fun t => t * (vy p - vy z))) in K. field_simplify in K; lra. }
      apply pt_eq; [|lra]. rewrite X in E. nra.
    + apply pt_eq; unfold along; simpl; [|field; lra]. rewrite X in *. assert (vx q - vx z = 0) by nra. lra.
  - exists ((vx q - vx z) / (vx p - vx z)). split.
    + intros K. apply Nq. assert (vx q - vx z = 0).
      { apply (f_equal (fun t => t * (vx p - vx z))) in K. field_simplify in K; lra. }
      apply pt_eq; [lra|]. nra.
    + apply pt_eq; unfold along; simpl; [field; lra|].
      apply (Rmult_eq_reg_r (vx p - vx z)); [|exact X]. field_simplify; [|exact X]. nra.
Qed.

Lemma ar_along_l : forall z p q k, ar z (along z p k) q = k * ar z p q.
Proof. intros. unfold ar, cross, along; simpl. ring. Qed.
Lemma ar_along_r : forall z p q k, ar z q (along z p k) = k * ar z q p.
Proof. intros. unfold ar, cross, along; simpl. ring. Qed.

Lemma ccw_total : forall z p q r, p <> z -> q <> z -> r <> z ->
  ~ samedir z p q -> ~ samedir z q r -> ~ samedir z r p -> ccw z p q r \/ ccw z r q p.
Proof.
  assert (OPP : forall z p q, p <> z -> q <> z -> ~ samedir z p q -> ar z p q = 0 ->
    exists k, 0 < k /\ forall x, ar z q x = - k * ar z p x).
  { intros z p q Np Nq N E. destruct (ar0_dir z p q Np Nq E) as (k & K & ->).
    exists (- k). split.
    - destruct (Rlt_le_dec 0 (- k)) as [?|?]; [assumption|]. exfalso. apply N. exists k. split; [lra|reflexivity].
    - intros x. rewrite ar_along_l. ring. }
  assert (ONE : forall z p q r, p <> z -> q <> z -> r <> z ->
    ~ samedir z p q -> ~ samedir z q r -> ~ samedir z r p -> ar z p q = 0 ->
    (0 < ar z q r /\ 0 < ar z r p) \/ (0 < - ar z q r /\ 0 < - ar z r p)).
  { intros z p q r Np Nq Nr N1 N2 N3 E. destruct (OPP z p q Np Nq N1 E) as (k & K & X).
    rewrite (X r). rewrite (ar_swap1 z p r).
    destruct (Rtotal_order (ar z p r) 0) as [T|[T|T]]; [left; nra| |right; nra].
    exfalso. destruct (OPP z p r Np Nr) as (l & L & Y); [intros S; apply N3; now apply samedir_sym|exact T|].
    apply N2. destruct (ar0_dir z p q Np Nq E) as (k1 & K1 & Eq).
    destruct (ar0_dir z p r Np Nr T) as (l1 & L1 & Er).
    assert (k1 < 0). { destruct (Rlt_le_dec k1 0) as [?|?]; [assumption|]. exfalso. apply N1. exists k1. split; [lra|exact Eq]. }
    assert (l1 < 0). { destruct (Rlt_le_dec l1 0) as [?|?]; [assumption|]. exfalso. apply N3. apply samedir_sym. exists l1. split; [lra|exact Er]. }
    exists (l1 / k1). split.
    - replace (l1 / k1) with ((- l1) / (- k1)) by (field; lra). apply Rdiv_lt_0_compat; lra.
    - rewrite Eq, Er. apply pt_eq; unfold along; simpl; field; lra. }
  intros z p q r Np Nq Nr N1 N2 N3. unfold ccw.
  rewrite (ar_swap1 z q r), (ar_swap1 z p q), (ar_swap1 z r p).
  destruct (Req_dec (ar z p q) 0) as [E|E]; [destruct (ONE z p q r Np Nq Nr N1 N2 N3 E); lra|].
  destruct (Req_dec (ar z q r) 0) as [E2|E2]; [destruct (ONE z q r p Nq Nr Np N2 N3 N1 E2); lra|].
  destruct (Req_dec (ar z r p) 0) as [E3|E3]; [destruct (ONE z r p q Nr Np Nq N3 N1 N2 E3); lra|].
  lra.
Qed.

Lemma ccw_not_same : forall z p q r, ccw z p q r -> ~ samedir z p q /\ ~ samedir z q r /\ ~ samedir z p r.
Proof.
  assert (H1 : forall z p q r, ccw z p q r -> ~ samedir z p q).
  { intros z p q r H (k & K & ->). unfold ccw in H. rewrite !ar_along_l, ar_along_r in H.
    rewrite (ar_swap1 z p r) in H.
    assert (ar z p p = 0) by (unfold ar, cross; ring). nra. }
  intros z p q r H. split; [now apply (H1 z p q r)|]. split; [apply (H1 z q r p); now apply ccw_rot|].
  intros S. apply (H1 z r p q); [now apply ccw_rot, ccw_rot|now apply samedir_sym].
Qed.

Lemma ccw_neq : forall z p q r, ccw z p q r -> p <> z /\ q <> z /\ r <> z.
Proof.
  assert (Z : forall z p, ar z z p = 0 /\ ar z p z = 0) by (intros; unfold ar, cross; split; ring).
  intros z p q r H. unfold ccw in H. split; [|split]; intros ->;
    rewrite ?(proj1 (Z _ _)), ?(proj2 (Z _ _)) in H; lra.
Qed.

(** The directions between p and r are those between p and b, b itself, and those
    between b and r. *)
Lemma ccw_split : forall z p b r c, ccw z p b r -> c <> z -> ~ samedir z b c ->
  ccw z p c r -> ccw z p c b \/ ccw z b c r.
Proof.
  intros z p b r c H Nc N K.
  destruct (ccw_neq _ _ _ _ H) as (Np & Nb & Nr).
  destruct (ccw_not_same _ _ _ _ H) as (S1 & S2 & S3).
  destruct (ccw_not_same _ _ _ _ K) as (S4 & S5 & S6).
  destruct (ccw_total z p c b) as [T|T]; auto.
  - intros S. apply N. now apply samedir_sym.
  - intros S. apply S1. now apply samedir_sym.
  - right.
    assert (A1 : ccw z c p b) by (now apply ccw_rot).
    assert (A2 : ccw z c r p) by (now apply ccw_rot).
    apply ccw_rot, ccw_rot. exact (ccw_trans z c r p b A2 A1).
Qed.

Lemma ccw_l : forall z p b r c, ccw z p b r -> ccw z p c b -> ccw z p c r /\ ~ ccw z b c r.
Proof.
  intros z p b r c H K. split; [now apply (ccw_trans z p c b r)|]. intros L.
  (* p c b, p b r -> b r c... *)
  assert (A : ccw z b r p) by (now apply ccw_rot). assert (B : ccw z b p c) by (now apply ccw_rot, ccw_rot).
  pose proof (ccw_trans z b r p c A B) as C. (* b r c *)
  apply (ccw_asym z b c r L). now apply ccw_rot.
Qed.

Lemma ccw_r : forall z p b r c, ccw z p b r -> ccw z b c r -> ccw z p c r /\ ~ ccw z p c b.
Proof.
  intros z p b r c H L. split.
  - (* r p b, r b c -> r p c *)
    assert (A : ccw z r p b) by (now apply ccw_rot, ccw_rot).
    assert (B : ccw z r b c) by (now apply ccw_rot, ccw_rot).
    apply ccw_rot. exact (ccw_trans z r p b c A B).
  - intros K. now apply (ccw_l z p b r c H K).
Qed.

Lemma perp_pos : forall z p, p <> z -> 0 < ar z p (P2 (vx z - (vy p - vy z)) (vy z + (vx p - vx z))).
Proof.
  intros z p Np.
  replace (ar z p _) with (Rsqr (vx p - vx z) + Rsqr (vy p - vy z)) by (unfold ar, cross, Rsqr; simpl; ring).
  destruct (Req_dec (vx p - vx z) 0) as [X|X].
  - destruct (Req_dec (vy p - vy z) 0) as [Y|Y]; [exfalso; apply Np; apply pt_eq; lra|].
    pose proof (Rsqr_pos_lt _ Y). pose proof (Rle_0_sqr (vx p - vx z)). lra.
  - pose proof (Rsqr_pos_lt _ X). pose proof (Rle_0_sqr (vy p - vy z)). lra.
Qed.

(** A direction strictly between two others. *)
Lemma ccw_exists : forall z p r, p <> z -> r <> z -> ~ samedir z p r -> exists d, ccw z p d r.
Proof.
  intros z p r Np Nr N.
  destruct (Rtotal_order (ar z p r) 0) as [T|[T|T]].
  - exists (P2 (vx z - (vy p - vy z)) (vy z + (vx p - vx z))). unfold ccw.
    assert (X : 0 < ar z p (P2 (vx z - (vy p - vy z)) (vy z + (vx p - vx z)))).
    { now apply perp_pos. }
    right; right. split; [rewrite ar_swap1; lra|exact X].
  - destruct (ar0_dir z p r Np Nr T) as (k & K & ->).
    assert (k < 0). { destruct (Rlt_le_dec k 0) as [?|?]; [assumption|]. exfalso. apply N. exists k. split; [lra|reflexivity]. }
    exists (P2 (vx z - (vy p - vy z)) (vy z + (vx p - vx z))). unfold ccw.
    assert (X : 0 < ar z p (P2 (vx z - (vy p - vy z)) (vy z + (vx p - vx z)))).
    { now apply perp_pos. }
    left. split; [exact X|]. rewrite ar_along_r. rewrite ar_swap1. nra.
  - exists (combo z p r 1 1). left. unfold ar, cross, combo in *; simpl. lra.
Qed.

Lemma ccw_scale : forall z p q r k, 0 < k -> ccw z p q r -> ccw z p (along z q k) r.
Proof.
  intros z p q r k K H. unfold ccw in *. rewrite ar_along_r, ar_along_l.
  destruct H as [[H1 H2]|[[H1 H2]|[H1 H2]]].
  - left. split; now apply pos_prod.
  - right; left. split; [now apply pos_prod|assumption].
  - right; right. split; [assumption|now apply pos_prod].
Qed.

(** ** Edges of rotated and reversed polygons *)
Lemma edges_split : forall a X b Y,
  edges_of (a :: X ++ b :: Y) = path (a :: X ++ [b]) ++ path (b :: Y ++ [a]).
Proof.
  intros a X b Y. unfold edges_of.
  replace ((a :: X ++ b :: Y) ++ [a]) with ((a :: X) ++ b :: (Y ++ [a])) by (simpl; now rewrite <- app_assoc).
  now rewrite path_app.
Qed.

Lemma edges_chord : forall a X b, edges_of (a :: X ++ [b]) = path (a :: X ++ [b]) ++ [(b, a)].
Proof. intros a X b. now rewrite edges_split. Qed.

Lemma edges_rot : forall l m, Permutation (edges_of (l ++ m)) (edges_of (m ++ l)).
Proof.
  intros [|a X] m; [now rewrite app_nil_r|]. destruct m as [|b Y]; [now rewrite app_nil_r|].
  change ((a :: X) ++ b :: Y) with (a :: X ++ b :: Y). change ((b :: Y) ++ a :: X) with (b :: Y ++ a :: X).
  rewrite !edges_split. apply Permutation_app_comm.
Qed.

Lemma wn_perm : forall es fs q, Permutation es fs -> wn es q = wn fs q.
Proof. intros es fs q P. induction P; simpl; lia. Qed.

Lemma path_fst : forall l a, map fst (path (l ++ [a])) = l.
Proof.
  induction l as [|x l IH]; intros a; [reflexivity|]. destruct l as [|y l]; [reflexivity|].
  change (path ((x :: y :: l) ++ [a])) with ((x, y) :: path ((y :: l) ++ [a])). cbn [map fst]. now rewrite IH.
Qed.

Lemma path_snd : forall l a, map snd (path (a :: l)) = l.
Proof.
  induction l as [|x l IH]; intros a; [reflexivity|].
  change (path (a :: x :: l)) with ((a, x) :: path (x :: l)). cbn [map snd]. now rewrite IH.
Qed.

Lemma edges_fst : forall P, map fst (edges_of P) = P.
Proof. intros [|a P]; [reflexivity|]. apply path_fst. Qed.

Lemma edges_snd : forall P, Permutation (map snd (edges_of P)) P.
Proof.
  intros [|a P]; [constructor|]. unfold edges_of. change ((a :: P) ++ [a]) with (a :: (P ++ [a])).
  rewrite path_snd. symmetry. apply Permutation_cons_append.
Qed.

Lemma edge_ends : forall P a b, In (a, b) (edges_of P) -> In a P /\ In b P.
Proof.
  intros P a b H. split.
  - rewrite <- (edges_fst P). now apply (in_map fst) in H.
  - apply (Permutation_in _ (edges_snd P)). now apply (in_map snd) in H.
Qed.

Lemma next_exists : forall P a, In a P -> exists b, In (a, b) (edges_of P).
Proof.
  intros P a H. rewrite <- (edges_fst P) in H. apply in_map_iff in H. destruct H as ([x b] & E & H).
  simpl in E. subst x. now exists b.
Qed.

Lemma prev_exists : forall P b, In b P -> exists a, In (a, b) (edges_of P).
Proof.
  intros P b H. apply (Permutation_in _ (Permutation_sym (edges_snd P))) in H.
  apply in_map_iff in H. destruct H as ([a x] & E & H). simpl in E. subst x. now exists a.
Qed.

Lemma nodup_fun : forall (A B : Type) (l : list (A * B)) a b c, NoDup (map fst l) -> In (a, b) l -> In (a, c) l -> b = c.
Proof.
  intros A B l a b c. induction l as [|[x y] l IH]; intros N H1 H2; [destruct H1|].
  cbn [map fst] in N. inversion N as [|? ? N1 N2]; subst.
  destruct H1 as [H1|H1], H2 as [H2|H2].
  - congruence.
  - inversion H1; subst. exfalso. apply N1. now apply (in_map fst) in H2.
  - inversion H2; subst. exfalso. apply N1. now apply (in_map fst) in H1.
  - auto.
Qed.

Lemma next_unique : forall P a b c, NoDup P -> In (a, b) (edges_of P) -> In (a, c) (edges_of P) -> b = c.
Proof. intros P a b c N. apply nodup_fun. now rewrite edges_fst. Qed.

Definition swap (e : point * point) : point * point := (snd e, fst e).

Lemma prev_unique : forall P a b c, NoDup P -> In (a, c) (edges_of P) -> In (b, c) (edges_of P) -> a = b.
Proof.
  intros P a b c N H1 H2. apply (nodup_fun _ _ (map swap (edges_of P)) c).
  - rewrite map_map. apply (Permutation_NoDup (Permutation_sym (edges_snd P)) N).
  - now apply (in_map swap) in H1.
  - now apply (in_map swap) in H2.
Qed.

Lemma path_rev : forall l, path (rev l) = rev (map swap (path l)).
Proof.
  induction l as [|a l IH]; [reflexivity|]. destruct l as [|b l]; [reflexivity|].
  change (path (a :: b :: l)) with ((a, b) :: path (b :: l)). cbn [map rev]. rewrite <- IH.
  cbn [rev]. rewrite <- app_assoc. change ([b] ++ [a]) with [b; a]. rewrite path_app. reflexivity.
Qed.

Lemma edges_rev : forall P, Permutation (edges_of (rev P)) (map swap (edges_of P)).
Proof.
  intros [|a P]; [constructor|]. cbn [rev].
  eapply perm_trans; [apply edges_rot|]. cbn [app]. unfold edges_of.
  replace ((a :: rev P) ++ [a]) with (rev ((a :: P) ++ [a])).
  - rewrite path_rev. symmetry. apply Permutation_rev.
  - rewrite rev_app_distr. cbn [rev app]. reflexivity.
Qed.

Lemma wn_swap : forall es q, wn (map swap es) q = (- wn es q)%Z.
Proof. induction es as [|[a b] es IH]; intros q; simpl; [reflexivity|]. rewrite IH, cr_swap. lia. Qed.

Lemma winding_rev : forall P q, winding (rev P) q = (- winding P q)%Z.
Proof. intros P q. unfold winding. rewrite (wn_perm _ _ q (edges_rev P)). apply wn_swap. Qed.

Lemma winding_rot : forall l m q, winding (l ++ m) q = winding (m ++ l) q.
Proof. intros l m q. apply wn_perm, edges_rot. Qed.

(** Splitting along a chord adds winding numbers. *)
Lemma winding_split : forall a X b Y q,
  winding (a :: X ++ b :: Y) q = (winding (a :: X ++ [b]) q + winding (b :: Y ++ [a]) q)%Z.
Proof.
  intros. unfold winding. rewrite edges_split, !edges_chord, !wn_app. cbn [wn fst snd].
  rewrite (cr_swap a b). lia.
Qed.

Lemma in_edges_rev : forall P a b, In (a, b) (edges_of (rev P)) <-> In (b, a) (edges_of P).
Proof.
  intros P a b. split; intros H.
  - apply (Permutation_in _ (edges_rev P)) in H. apply in_map_iff in H. destruct H as ([x y] & E & H).
    unfold swap in E; simpl in E. inversion E; subst. exact H.
  - apply (Permutation_in _ (Permutation_sym (edges_rev P))). apply in_map_iff. now exists (b, a).
Qed.

(** ** Simple polygons *)
Lemma simple_rot : forall l m, simple (l ++ m) -> simple (m ++ l).
Proof.
  intros l m (L & N & S). split; [rewrite app_length in *; lia|]. split.
  - apply (Permutation_NoDup (Permutation_app_comm l m) N).
  - intros a b c d x H1 H2. apply S; apply (Permutation_in _ (edges_rot m l)); assumption.
Qed.

Lemma simple_rev : forall P, simple P -> simple (rev P).
Proof.
  intros P (L & N & S). split; [now rewrite rev_length|]. split; [now apply NoDup_rev|].
  intros a b c d x H1 H2 X1 X2. rewrite in_edges_rev in H1, H2.
  destruct (S b a d c x H1 H2 (on_segment_rev _ _ _ X1) (on_segment_rev _ _ _ X2)) as [E|[[E1 E2]|[E1 E2]]].
  - left. subst d. exact (next_unique P b a c N H1 H2).
  - right; right. split; congruence.
  - right; left. split; congruence.
Qed.

Lemma on_seg_l : forall p q, on_segment p q p.
Proof. intros p q. exists 0. split; [lra|]. symmetry. apply along0. Qed.
Lemma on_seg_r : forall p q, on_segment p q q.
Proof. intros p q. exists 1. split; [lra|]. symmetry. apply along1. Qed.

Lemma on_seg_sub : forall z c c' x, on_segment z c c' -> on_segment z c' x -> on_segment z c x.
Proof.
  intros z c c' x (t & T & ->) (s & S & ->). exists (s * t). split; [nra|].
  apply pt_eq; unfold along; simpl; ring.
Qed.

(** A vertex lies only on its own two edges. *)
Lemma vertex_on : forall P v c d, simple P -> In v P -> In (c, d) (edges_of P) -> on_segment c d v -> v = c \/ v = d.
Proof.
  intros P v c d (L & N & S) Hv H X. destruct (next_exists P v Hv) as (w & Hw).
  destruct (S v w c d v Hw H (on_seg_l _ _) X) as [E|[[E1 E2]|[E1 E2]]]; auto.
  left. congruence.
Qed.

Lemma edge_neq : forall P a b, simple P -> In (a, b) (edges_of P) -> a <> b.
Proof.
  intros P a b (L & N & S) H E. subst b.
  (* a is its own successor: a rotation of P starts with a, so P = [a] *)
  destruct (edge_ends _ _ _ H) as [I _]. apply in_split in I. destruct I as (l & m & ->).
  assert (H' : In (a, a) (edges_of ((a :: m) ++ l))) by (apply (Permutation_in _ (edges_rot l (a :: m))); exact H).
  assert (N' : NoDup ((a :: m) ++ l)) by (apply (Permutation_NoDup (Permutation_app_comm l (a :: m)) N)).
  cbn [app] in H', N'. rewrite app_length in L. cbn [length] in L.
  destruct (m ++ l) as [|x k] eqn:E.
  - apply app_eq_nil in E. destruct E; subst. simpl in L. lia.
  - inversion N' as [|? ? N1 N2]; subst. apply N1. left.
    apply (next_unique (a :: x :: k) a); [exact N'| |exact H'].
    now left.
Qed.

(** ** Chords *)
(** The segment a b meets the edges of P at a and b only. *)
Definition clear (P : list point) (a b : point) : Prop :=
  forall c d x, In (c, d) (edges_of P) -> on_segment c d x -> on_segment a b x -> x = a \/ x = b.

Lemma clear_rot : forall l m a b, clear (l ++ m) a b -> clear (m ++ l) a b.
Proof. intros l m a b C c d x H. apply C. apply (Permutation_in _ (edges_rot m l)). exact H. Qed.

Lemma clear_sym : forall P a b, clear P a b -> clear P b a.
Proof. intros P a b C c d x H X1 X2. apply on_segment_rev in X2. destruct (C c d x H X1 X2); auto. Qed.

Lemma split_simple : forall a X b Y, simple (a :: X ++ b :: Y) -> X <> [] ->
  clear (a :: X ++ b :: Y) a b -> simple (a :: X ++ [b]).
Proof.
  intros a X b Y S NX C. pose proof S as (L & N & I). 
  assert (Sub : forall e, In e (path (a :: X ++ [b])) -> In e (edges_of (a :: X ++ b :: Y))).
  { intros e He. rewrite edges_split. apply in_or_app. now left. }
  assert (N1 : NoDup (a :: X ++ [b])).
  { replace (a :: X ++ b :: Y) with ((a :: X ++ [b]) ++ Y) in N by (simpl; now rewrite <- app_assoc).
    clear - N. revert N. generalize (a :: X ++ [b]). intros l. induction l as [|x l IH]; intros N; [constructor|].
    inversion N as [|? ? N1 N2]; subst. constructor; [|now apply IH]. intros H. apply N1. apply in_or_app. now left. }
  assert (Va : In a (a :: X ++ b :: Y)) by (now left).
  assert (Vb : In b (a :: X ++ b :: Y)) by (right; apply in_or_app; right; now left).
  assert (Nd : forall c d, In (c, d) (path (a :: X ++ [b])) -> d <> a /\ c <> b).
  { intros c d H. split; intros ->.
    - apply (in_map snd) in H. rewrite path_snd in H. inversion N1; subst. now auto.
    - apply (in_map fst) in H. change (a :: X ++ [b]) with ((a :: X) ++ [b]) in H. rewrite path_fst in H. cbn [fst] in H.
      change (a :: X ++ [b]) with ((a :: X) ++ [b]) in N1. apply NoDup_remove_2 in N1. apply N1.
      rewrite app_nil_r. exact H. }
  split; [|split; [exact N1|]].
  { destruct X as [|x X]; [contradiction|]. simpl. rewrite app_length. simpl. lia. }
  intros c d c' d' x. rewrite edges_chord. intros H1 H2 X1 X2.
  apply in_app_or in H1, H2.
  destruct H1 as [H1|[H1|[]]], H2 as [H2|[H2|[]]].
  - apply (I c d c' d' x); auto.
  - inversion H2; subst c' d'. destruct (Nd c d H1) as [D1 D2].
    destruct (C c d x (Sub _ H1) X1 (on_segment_rev _ _ _ X2)) as [->| ->].
    + destruct (vertex_on _ _ _ _ S Va (Sub _ H1) X1) as [E|E]; [|congruence]. right; right. auto.
    + destruct (vertex_on _ _ _ _ S Vb (Sub _ H1) X1) as [E|E]; [congruence|]. right; left. auto.
  - inversion H1; subst c d. destruct (Nd c' d' H2) as [D1 D2].
    destruct (C c' d' x (Sub _ H2) X2 (on_segment_rev _ _ _ X1)) as [->| ->].
    + destruct (vertex_on _ _ _ _ S Va (Sub _ H2) X2) as [E|E]; [|congruence]. right; left. auto.
    + destruct (vertex_on _ _ _ _ S Vb (Sub _ H2) X2) as [E|E]; [congruence|]. right; right. auto.
  - inversion H1; inversion H2; subst. left. reflexivity.
Qed.

Lemma split_simple2 : forall a X b Y, simple (a :: X ++ b :: Y) -> Y <> [] ->
  clear (a :: X ++ b :: Y) a b -> simple (b :: Y ++ [a]).
Proof.
  intros a X b Y S NY C. apply (split_simple b Y a X); [|exact NY|].
  - exact (simple_rot (a :: X) (b :: Y) S).
  - apply clear_sym. exact (clear_rot (a :: X) (b :: Y) a b C).
Qed.

(** ** Room around a point *)
Definition near (d : R) (z c : point) : Prop := Rabs (vx c - vx z) <= d /\ Rabs (vy c - vy z) <= d.

(** A closed half plane containing the segment but not the point. *)
Lemma separate : forall r s z, ~ on_segment r s z -> exists al be ga,
  al * vx z + be * vy z + ga < 0 /\ 0 <= al * vx r + be * vy r + ga /\ 0 <= al * vx s + be * vy s + ga.
Proof.
  intros r s z N.
  destruct (Rtotal_order (ar r s z) 0) as [T|[T|T]].
  - exists (- (vy s - vy r)), (vx s - vx r), (- (vx s - vx r) * vy r + (vy s - vy r) * vx r).
    unfold ar, cross in T. split; [lra|]. split; [lra|]. right. ring.
  - destruct (Req_dec (vx r) (vx s)) as [E1|E1]; [destruct (Req_dec (vy r) (vy s)) as [E2|E2]|].
    + (* r = s *)
      assert (Nz : ~ (vx z = vx r /\ vy z = vy r)).
      { intros [A B]. apply N. exists 0. split; [lra|]. apply pt_eq; unfold along; simpl; lra. }
      destruct (Rtotal_order (vx z) (vx r)) as [A|[A|A]].
      * exists 1, 0, (- vx r). rewrite <- E1. lra.
      * destruct (Rtotal_order (vy z) (vy r)) as [B|[B|B]]; [|exfalso; tauto|].
        -- exists 0, 1, (- vy r). rewrite <- E2. lra.
        -- exists 0, (-1), (vy r). rewrite <- E2. lra.
      * exists (-1), 0, (vx r). rewrite <- E1. lra.
    + (* vertical *)
      unfold ar, cross in T. rewrite <- E1 in T.
      assert (Ex : vx z = vx r) by nra.
      assert (K : forall t, 0 <= t <= 1 -> vy z = vy r + t * (vy s - vy r) -> False).
      { intros t Ht E. apply N. exists t. split; [exact Ht|]. apply pt_eq; unfold along; simpl; [rewrite <- E1; lra|exact E]. }
      assert (K' : (vy z < vy r /\ vy z < vy s) \/ (vy r < vy z /\ vy s < vy z)).
      { destruct (Rlt_le_dec (vy z) (vy r)), (Rlt_le_dec (vy z) (vy s)); try (left; lra).
        - exfalso. apply (K ((vy r - vy z) / (vy r - vy s))); [|field; lra]. assert (0 < vy r - vy s) by lra. split.
          + apply Rmult_le_pos; [lra|left; now apply Rinv_0_lt_compat].
          + apply (Rmult_le_reg_r (vy r - vy s)); [lra|]. unfold Rdiv. rewrite Rmult_assoc, Rinv_l by lra. lra.
        - exfalso. apply (K ((vy z - vy r) / (vy s - vy r))); [|field; lra]. assert (0 < vy s - vy r) by lra. split.
          + apply Rmult_le_pos; [lra|left; now apply Rinv_0_lt_compat].
          + apply (Rmult_le_reg_r (vy s - vy r)); [lra|]. unfold Rdiv. rewrite Rmult_assoc, Rinv_l by lra. lra.
        - right. split.
          + destruct (Rle_lt_or_eq_dec _ _ r0) as [?|E]; [lra|]. exfalso. apply (K 0); lra.
          + destruct (Rle_lt_or_eq_dec _ _ r1) as [?|E]; [lra|]. exfalso. apply (K 1); lra. }
      destruct K' as [[A B]|[A B]].
      * destruct (Rle_lt_dec (vy r) (vy s)); [exists 0, 1, (- vy r)|exists 0, 1, (- vy s)]; lra.
      * destruct (Rle_lt_dec (vy r) (vy s)); [exists 0, (-1), (vy s)|exists 0, (-1), (vy r)]; lra.
    + unfold ar, cross in T.
      assert (K : forall t, 0 <= t <= 1 -> vx z = vx r + t * (vx s - vx r) -> False).
      { intros t Ht E. apply N. exists t. split; [exact Ht|]. apply pt_eq; unfold along; simpl; [exact E|].
        assert (vx z - vx r = t * (vx s - vx r)) by lra. nra. }
      assert (K' : (vx z < vx r /\ vx z < vx s) \/ (vx r < vx z /\ vx s < vx z)).
      { destruct (Rlt_le_dec (vx z) (vx r)), (Rlt_le_dec (vx z) (vx s)); try (left; lra).
        - exfalso. apply (K ((vx r - vx z) / (vx r - vx s))); [|field; lra]. assert (0 < vx r - vx s) by lra. split.
          + apply Rmult_le_pos; [lra|left; now apply Rinv_0_lt_compat].
          + apply (Rmult_le_reg_r (vx r - vx s)); [lra|]. unfold Rdiv. rewrite Rmult_assoc, Rinv_l by lra. lra.
        - exfalso. apply (K ((vx z - vx r) / (vx s - vx r))); [|field; lra]. assert (0 < vx s - vx r) by lra. split.
          + apply Rmult_le_pos; [lra|left; now apply Rinv_0_lt_compat].
          + apply (Rmult_le_reg_r (vx s - vx r)); [lra|]. unfold Rdiv. rewrite Rmult_assoc, Rinv_l by lra. lra.
        - right. split.
          + destruct (Rle_lt_or_eq_dec _ _ r0) as [?|E]; [lra|]. exfalso. apply (K 0); lra.
          + destruct (Rle_lt_or_eq_dec _ _ r1) as [?|E]; [lra|]. exfalso. apply (K 1); lra. }
      destruct K' as [[A B]|[A B]].
      * destruct (Rle_lt_dec (vx r) (vx s)); [exists 1, 0, (- vx r)|exists 1, 0, (- vx s)]; lra.
      * destruct (Rle_lt_dec (vx r) (vx s)); [exists (-1), 0, (vx s)|exists (-1), 0, (vx r)]; lra.
  - exists (vy s - vy r), (- (vx s - vx r)), ((vx s - vx r) * vy r - (vy s - vy r) * vx r).
    unfold ar, cross in T. split; [lra|]. split; [lra|]. right. ring.
Qed.

Lemma near_one : forall r s z, ~ on_segment r s z -> exists d, 0 < d /\ forall c, near d z c -> ~ on_segment r s c.
Proof.
  intros r s z N. destruct (separate r s z N) as (al & be & ga & H1 & H2 & H3).
  set (m := - (al * vx z + be * vy z + ga)). assert (M : 0 < m) by (unfold m; lra).
  set (K := Rabs al + Rabs be + 1).
  assert (HK : 0 < K) by (unfold K; pose proof (Rabs_pos al); pose proof (Rabs_pos be); lra).
  exists (m / (2 * K)). split; [apply Rdiv_lt_0_compat; lra|].
  intros c [C1 C2] (t & T & ->). set (c := along r s t) in *.
  assert (P : 0 <= al * vx c + be * vy c + ga).
  { replace (al * vx c + be * vy c + ga) with ((1 - t) * (al * vx r + be * vy r + ga) + t * (al * vx s + be * vy s + ga))
      by (unfold c, along; simpl; ring).
    apply Rplus_le_le_0_compat; apply Rmult_le_pos; lra. }
  assert (Q : al * (vx c - vx z) + be * (vy c - vy z) <= (Rabs al + Rabs be) * (m / (2 * K))).
  { rewrite Rmult_plus_distr_r. apply Rplus_le_compat.
    - apply Rle_trans with (Rabs (al * (vx c - vx z))); [apply Rle_abs|]. rewrite Rabs_mult.
      apply Rmult_le_compat_l; [apply Rabs_pos|exact C1].
    - apply Rle_trans with (Rabs (be * (vy c - vy z))); [apply Rle_abs|]. rewrite Rabs_mult.
      apply Rmult_le_compat_l; [apply Rabs_pos|exact C2]. }
  assert (W : (Rabs al + Rabs be) * (m / (2 * K)) <= K * (m / (2 * K))).
  { apply Rmult_le_compat_r; [left; apply Rdiv_lt_0_compat; lra|unfold K; lra]. }
  assert (V : K * (m / (2 * K)) = m / 2) by (field; lra).
  unfold m in *. lra.
Qed.

Lemma near_all : forall (es : list (point * point)) z, (forall e, In e es -> ~ on_segment (fst e) (snd e) z) ->
  exists d, 0 < d /\ forall c e, near d z c -> In e es -> ~ on_segment (fst e) (snd e) c.
Proof.
  induction es as [|[r s] es IH]; intros z H.
  - exists 1. split; [lra|]. intros c e _ [].
  - destruct (IH z) as (d & D & K); [intros e He; apply H; now right|].
    destruct (near_one r s z) as (d' & D' & K'); [apply (H (r, s)); now left|].
    exists (Rmin d d'). split; [now apply Rmin_glb_lt|].
    assert (M1 : forall c, near (Rmin d d') z c -> near d z c /\ near d' z c).
    { intros c [C1 C2]. pose proof (Rmin_l d d'). pose proof (Rmin_r d d'). unfold near. lra. }
    intros c e C [<-|He].
    + apply K'. now apply M1.
    + apply K; [now apply M1|exact He].
Qed.

Lemma near_along : forall d z c, 0 < d -> exists t, 0 < t <= 1 /\ forall s, 0 <= s <= t -> near d z (along z c s).
Proof.
  intros d z c D. set (K := Rabs (vx c - vx z) + Rabs (vy c - vy z) + 1).
  pose proof (Rabs_pos (vx c - vx z)). pose proof (Rabs_pos (vy c - vy z)).
  assert (HK : 0 < K) by (unfold K; lra).
  exists (Rmin 1 (d / K)). split.
  { split; [apply Rmin_glb_lt; [lra|now apply Rdiv_lt_0_compat]|apply Rmin_l]. }
  intros s [S1 S2]. assert (S3 : s <= d / K) by (eapply Rle_trans; [exact S2|apply Rmin_r]).
  assert (S4 : s * K <= d). { apply (Rmult_le_compat_r K) in S3; [|lra]. unfold Rdiv in S3. rewrite Rmult_assoc, Rinv_l in S3 by lra. lra. }
  unfold near, along; simpl. split.
  - replace (vx z + s * (vx c - vx z) - vx z) with (s * (vx c - vx z)) by ring.
    rewrite Rabs_mult, (Rabs_pos_eq s) by exact S1. unfold K in S4. nra.
  - replace (vy z + s * (vy c - vy z) - vy z) with (s * (vy c - vy z)) by ring.
    rewrite Rabs_mult, (Rabs_pos_eq s) by exact S1. unfold K in S4. nra.
Qed.

Lemma near_seg : forall d z c, near d z c -> forall x, on_segment z c x -> near d z x.
Proof.
  intros d z c [H1 H2] x (t & T & ->). unfold near, along in *; simpl.
  pose proof (Rabs_pos (vx c - vx z)). pose proof (Rabs_pos (vy c - vy z)).
  split.
  - replace (vx z + t * (vx c - vx z) - vx z) with (t * (vx c - vx z)) by ring.
    rewrite Rabs_mult, (Rabs_pos_eq t) by lra. nra.
  - replace (vy z + t * (vy c - vy z) - vy z) with (t * (vy c - vy z)) by ring.
    rewrite Rabs_mult, (Rabs_pos_eq t) by lra. nra.
Qed.
