(** * Gluing two counterclockwise polygons along a chord *)
From Coq Require Import Reals List Bool Lra Lia Psatz ZArith Permutation Classical.
From Verif Require Import Scalar Utils PlaneSpec PolySpec Laws UtilsReal PolyArea PolyTri Winding SimplePoly SimpleWinding SimpleSplit.
Import ListNotations.
Local Open Scope R_scope.

(** Moving the far end of a segment that meets the polygon at its near end only. *)
Lemma only_at_sub : forall P z c c', only_at P z c -> on_segment z c c' -> only_at P z c'.
Proof. intros P z c c' O H a b x I X1 X2. apply (O a b x I X1). now apply (on_seg_sub z c c'). Qed.

Lemma only_at_move : forall P z c t, only_at P z c -> c <> z -> 0 < t <= 1 -> winding P c = winding P (along z c t).
Proof.
  intros P z c t O N T. symmetry. apply winding_move. intros [e f] x He X1 X2. cbn [fst snd] in X2.
  destruct X1 as (s & Hs & ->).
  assert (E : along (along z c t) c s = along z c (t + s * (1 - t))) by (apply pt_eq; unfold along; simpl; ring).
  assert (Z : along z c (t + s * (1 - t)) = z).
  { rewrite E in X2. apply (O e f _ He X2). exists (t + s * (1 - t)). split; [|reflexivity]. nra. }
  assert (0 < t + s * (1 - t)) by nra.
  apply N. assert (Zx := f_equal vx Z). assert (Zy := f_equal vy Z). unfold along in Zx, Zy; simpl in Zx, Zy.
  apply pt_eq; [nra|nra].
Qed.

Lemma along_neq : forall z c t, c <> z -> 0 < t -> along z c t <> z.
Proof.
  intros z c t N T E. apply N. assert (Zx := f_equal vx E). assert (Zy := f_equal vy E).
  unfold along in Zx, Zy; simpl in Zx, Zy. apply pt_eq; nra.
Qed.

Lemma on_seg_same : forall z p x, on_segment z p x -> x <> z -> samedir z p x.
Proof.
  intros z p x (t & T & ->) N. exists t. split; [|reflexivity].
  destruct (Req_dec t 0) as [->|?]; [|lra]. exfalso. apply N. apply along0.
Qed.

(** Two segments from z in different directions meet at z only. *)
Lemma diff_dir : forall z p c x, ~ samedir z p c -> on_segment z p x -> on_segment z c x -> x = z.
Proof.
  intros z p c x N X1 X2. destruct (classic (x = z)) as [|Nx]; [assumption|]. exfalso. apply N.
  apply (samedir_trans z p x c); [now apply on_seg_same|]. apply samedir_sym. now apply on_seg_same.
Qed.

(** Close to z only the edges through z matter. *)
Lemma near_edges : forall (es : list (point * point)) z, exists d, 0 < d /\
  forall e c, In e es -> near d z c -> on_segment (fst e) (snd e) c -> on_segment (fst e) (snd e) z.
Proof.
  induction es as [|[r s] es IH]; intros z.
  - exists 1. split; [lra|]. intros e c [].
  - destruct (IH z) as (d & D & H).
    destruct (classic (on_segment r s z)) as [O|O].
    + exists d. split; [exact D|]. intros e c [<-|He] Nc Oc; [exact O|now apply (H e c)].
    + destruct (near_one r s z O) as (d' & D' & H'). exists (Rmin d d'). split; [now apply Rmin_glb_lt|].
      pose proof (Rmin_l d d'). pose proof (Rmin_r d d').
      intros e c [<-|He] [C1 C2] Oc.
      * exfalso. apply (H' c); [split; lra|exact Oc].
      * apply (H e c); [exact He|split; lra|exact Oc].
Qed.

Lemma near_combo : forall d z p q, 0 < d -> exists t, 0 < t <= 1 /\
  forall l m, 0 <= l <= t -> 0 <= m <= t -> near d z (combo z p q l m).
Proof.
  intros d z p q D.
  destruct (near_along (d / 2) z p) as (t1 & T1 & H1); [lra|].
  destruct (near_along (d / 2) z q) as (t2 & T2 & H2); [lra|].
  exists (Rmin t1 t2). pose proof (Rmin_l t1 t2). pose proof (Rmin_r t1 t2).
  split; [split; [apply Rmin_glb_lt; lra|lra]|]. intros l m L M.
  destruct (H1 l) as [A1 A2]; [lra|]. destruct (H2 m) as [B1 B2]; [lra|].
  unfold along, near, combo in *; simpl in *. split.
  - replace (vx z + l * (vx p - vx z) + m * (vx q - vx z) - vx z)
      with ((vx z + l * (vx p - vx z) - vx z) + (vx z + m * (vx q - vx z) - vx z)) by ring.
    eapply Rle_trans; [apply Rabs_triang|]. lra.
  - replace (vy z + l * (vy p - vy z) + m * (vy q - vy z) - vy z)
      with ((vy z + l * (vy p - vy z) - vy z) + (vy z + m * (vy q - vy z) - vy z)) by ring.
    eapply Rle_trans; [apply Rabs_triang|]. lra.
Qed.

Lemma ccw_unscale : forall z p q r k, 0 < k -> ccw z p (along z q k) r -> ccw z p q r.
Proof.
  intros z p q r k K H.
  assert (E : q = along z (along z q k) (/ k)) by (apply pt_eq; unfold along; simpl; field; lra).
  rewrite E. apply ccw_scale; [now apply Rinv_0_lt_compat|exact H].
Qed.

Section Glue.
Variables (a b : point) (X Y : list point) (a0 a1 b0 b1 : point).
Let P := a :: X ++ b :: Y.
Let P1 := a :: X ++ [b].
Let P2 := b :: Y ++ [a].
Hypothesis S : simple P.
Hypothesis C : clear P a b.
Hypothesis NX : X <> [].
Hypothesis NY : Y <> [].
Hypothesis Ea0 : In (a0, a) (edges_of P).
Hypothesis Ea1 : In (a, a1) (edges_of P).
Hypothesis Eb0 : In (b0, b) (edges_of P).
Hypothesis Eb1 : In (b, b1) (edges_of P).
Hypothesis Ka : ccw a a1 b a0.
Hypothesis Kb : ccw b b1 a b0.
Hypothesis Q1 : pos P1.
Hypothesis Q2 : pos P2.

Let S' : simple (b :: Y ++ a :: X) := simple_rot (a :: X) (b :: Y) S.
Let C' : clear (b :: Y ++ a :: X) b a := clear_sym _ _ _ (clear_rot (a :: X) (b :: Y) a b C).
Lemma gl_rot : forall e, In e (edges_of P) <-> In e (edges_of (b :: Y ++ a :: X)).
Proof.
  intros e. split; intros H.
  - apply (Permutation_in _ (edges_rot (a :: X) (b :: Y))). exact H.
  - apply (Permutation_in _ (edges_rot (b :: Y) (a :: X))). exact H.
Qed.

Lemma gl_x0 : forall x, In x X -> winding P2 x = 0%Z.
Proof.
  intros x Hx. apply (sp_chain0 b a Y X S' C' NX a0 a1); auto; now apply gl_rot.
Qed.

Lemma gl_w : forall c, winding P c = (winding P1 c + winding P2 c)%Z.
Proof. intros c. apply winding_split. Qed.

(** Vertices strictly inside the first chain. *)
Lemma gl_x : forall z0 z z1 c, In z X -> In (z0, z) (edges_of P) -> In (z, z1) (edges_of P) -> c <> z -> only_at P z c ->
  (ccw z z1 c z0 -> winding P c = 1%Z) /\ (~ ccw z z1 c z0 -> winding P c = 0%Z).
Proof.
  intros z0 z z1 c Hz H0 H1 Nc O.
  assert (Off : ~ on_segment a b z).
  { intros K. apply (sp_off b a Y X S' C' z a b Hz); [|exact K]. apply sp_edge1. now right. }
  destruct (near_one a b z Off) as (d & D & Nr).
  destruct (near_along d z c D) as (t & T & Nt).
  set (c' := along z c t).
  assert (OC : on_segment z c c') by (exists t; split; [lra|reflexivity]).
  assert (Nc' : c' <> z) by (apply along_neq; [exact Nc|lra]).
  assert (O' : only_at P z c') by (now apply (only_at_sub P z c c')).
  assert (Nab : forall x, on_segment z c' x -> ~ on_segment a b x).
  { intros x Hx. apply Nr. apply (near_seg d z c'); [apply Nt; lra|exact Hx]. }
  assert (O1 : only_at P1 z c').
  { intros e f x He Xe Xz. apply sp_edge1 in He. destruct He as [He|[-> ->]].
    - apply (O' e f x); [apply sp_edge; now left|exact Xe|exact Xz].
    - exfalso. apply (Nab x Xz). now apply on_segment_rev. }
  assert (W2 : winding P2 c' = 0%Z).
  { rewrite <- (gl_x0 z Hz). symmetry. apply winding_move. intros [e f] x He Xz Xe. cbn [fst snd] in Xe.
    apply sp_edge2 in He. destruct He as [He|[-> ->]]; [|exact (Nab x Xz Xe)].
    assert (x = z) by (apply (O' e f x); [apply sp_edge; now right|exact Xe|exact Xz]). subst x.
    apply (sp_off b a Y X S' C' z e f Hz); [|exact Xe]. apply sp_edge1. left. exact He. }
  rewrite (only_at_move P z c t O Nc T). fold c'. rewrite gl_w, W2, Z.add_0_r.
  destruct (Q1 z0 z z1 c') as [R1 R2]; auto.
  - apply sp_edge1. left. now apply (sp_at_x a b X Y S).
  - apply sp_edge1. left. now apply (sp_at_x' a b X Y S).
  - split; intros K.
    + apply R1. apply ccw_scale; [lra|exact K].
    + apply R2. intros K'. apply K. apply (ccw_unscale z z1 c z0 t); [lra|exact K'].
Qed.

(** The end a, away from the chord. *)
Lemma gl_a_off : forall c, c <> a -> only_at P a c -> ~ samedir a b c ->
  (ccw a a1 c a0 -> winding P c = 1%Z) /\ (~ ccw a a1 c a0 -> winding P c = 0%Z).
Proof.
  intros c Nc O N.
  assert (O1 : only_at P1 a c).
  { intros e f x He Xe Xz. apply sp_edge1 in He. destruct He as [He|[-> ->]].
    - apply (O e f x); [apply sp_edge; now left|exact Xe|exact Xz].
    - apply (diff_dir a b c x N); [now apply on_segment_rev|exact Xz]. }
  assert (O2 : only_at P2 a c).
  { intros e f x He Xe Xz. apply sp_edge2 in He. destruct He as [He|[-> ->]].
    - apply (O e f x); [apply sp_edge; now right|exact Xe|exact Xz].
    - apply (diff_dir a b c x N); [exact Xe|exact Xz]. }
  destruct (Q1 b a a1 c) as [R1 R2]; auto.
  { apply sp_edge1. now right. }
  { apply sp_edge1. left. now apply (sp_next_a a b X Y S). }
  destruct (Q2 a0 a b c) as [T1 T2]; auto.
  { apply sp_edge2. left. now apply (sp_prev_a a b X Y S). }
  { apply sp_edge2. now right. }
  rewrite gl_w. split; intros K.
  - destruct (ccw_split a a1 b a0 c Ka Nc N K) as [L|L].
    + rewrite (R1 L). destruct (ccw_l a a1 b a0 c Ka L) as [_ M]. now rewrite (T2 M).
    + rewrite (T1 L). destruct (ccw_r a a1 b a0 c Ka L) as [_ M]. now rewrite (R2 M).
  - rewrite R2, T2; [reflexivity| |].
    + intros L. apply K. now apply (ccw_r a a1 b a0 c).
    + intros L. apply K. now apply (ccw_l a a1 b a0 c).
Qed.

Lemma ar_combo : forall z p q l m, ar z p (combo z p q l m) = m * ar z p q /\ ar z (combo z p q l m) q = l * ar z p q.
Proof. intros. unfold ar, cross, combo; simpl. split; ring. Qed.

(** A point on the chord can be pushed off it, on one side, close to a. *)
Lemma gl_push : exists d, 0 < d /\ forall s, 0 < s <= d -> exists c', c' <> a /\ only_at P a c' /\ ~ samedir a b c' /\
  ccw a a1 c' a0 /\ winding P (along a b s) = winding P c'.
Proof.
  assert (N0 : ~ samedir a a0 a1).
  { intros K. apply (no_spike P a0 a a1 S Ea0 Ea1). now apply samedir_sym. }
  destruct (ccw_not_same _ _ _ _ Ka) as (M1 & M2 & M3). destruct (ccw_neq _ _ _ _ Ka) as (Na1 & Nb & Na0).
  destruct (near_edges (edges_of P) a) as (d & D & H).
  assert (In_a : In a P) by (now left).
  (* edges close to a *)
  assert (HE : forall e f x, In (e, f) (edges_of P) -> near d a x -> on_segment e f x ->
    on_segment a a0 x \/ on_segment a a1 x).
  { intros e f x He Nx Xe. pose proof (H (e, f) x He Nx Xe) as Oa. cbn [fst snd] in Oa.
    destruct (vertex_on P a e f S In_a He Oa) as [E|E]; subst.
    - right. replace a1 with f; [exact Xe|]. apply (next_unique P e); [apply S|exact He|exact Ea1].
    - left. replace a0 with e; [now apply on_segment_rev|]. apply (prev_unique P e a0 f); [apply S|exact He|exact Ea0]. }
  (* pushing along the directions of a convex angle *)
  assert (CASES : (0 < ar a a1 b) \/ (0 < ar a b a0)) by (unfold ccw in Ka; lra).
  destruct CASES as [A|A].
  - destruct (near_combo d a a1 b D) as (t & T & Nt). exists t. split; [lra|]. intros s Hs.
    set (g := fun l => combo a a1 b l s).
    assert (G0 : g 0 = along a b s) by (apply pt_eq; unfold g, combo, along; simpl; ring).
    assert (Gn : forall l, 0 <= l -> g l <> a).
    { intros l L E. destruct (ar_combo a a1 b l s) as [F _]. fold (g l) in F. rewrite E in F.
      assert (Z : ar a a1 a = 0) by (unfold ar, cross; ring). nra. }
    assert (G1 : forall l, 0 <= l -> ~ samedir a a1 (g l)).
    { intros l L (k & K & E). destruct (ar_combo a a1 b l s) as [F _]. fold (g l) in F. rewrite E, ar_along_r in F.
      assert (Z : ar a a1 a1 = 0) by (unfold ar, cross; ring). rewrite Z in F. nra. }
    assert (Gc : forall l, 0 < l -> ccw a a1 (g l) b).
    { intros l L. left. destruct (ar_combo a a1 b l s) as [F1 F2]. unfold g. rewrite F1, F2. split; apply pos_prod; lra. }
    assert (G2 : forall l, 0 <= l -> ccw a a1 (g l) a0).
    { intros l L. destruct (Req_dec l 0) as [->|L0].
      - rewrite G0. apply ccw_scale; [lra|exact Ka].
      - apply (ccw_l a a1 b a0 (g l) Ka). apply Gc. lra. }
    assert (Oat : forall l, 0 <= l <= s -> only_at P a (g l)).
    { intros l L e f x He Xe Xa.
      assert (Nx : near d a x) by (apply (near_seg d a (g l)); [apply Nt; lra|exact Xa]).
      destruct (HE e f x He Nx Xe) as [W|W].
      - apply (diff_dir a a0 (g l) x); [|exact W|exact Xa]. intros K.
        destruct (ccw_not_same _ _ _ _ (G2 l (proj1 L))) as (_ & Z & _). apply Z. now apply samedir_sym.
      - apply (diff_dir a a1 (g l) x); [|exact W|exact Xa]. apply G1. lra. }
    exists (g s). split; [apply Gn; lra|]. split; [apply Oat; lra|]. split; [|split].
    + destruct (ccw_not_same _ _ _ _ (Gc s ltac:(lra))) as (_ & Z & _). intros K. apply Z. now apply samedir_sym.
    + apply G2. lra.
    + rewrite <- G0. apply winding_move. intros [e f] x He Xa Xe. cbn [fst snd] in Xe. destruct Xa as (r & Hr & ->).
      assert (E : along (g 0) (g s) r = g (r * s)) by (apply pt_eq; unfold g, along, combo; simpl; ring).
      rewrite E in Xe. apply (Gn (r * s)); [nra|].
      apply (Oat (r * s) ltac:(nra) e f (g (r * s)) He Xe). apply on_seg_r.
  - destruct (near_combo d a b a0 D) as (t & T & Nt). exists t. split; [lra|]. intros s Hs.
    set (g := fun m => combo a b a0 s m).
    assert (G0 : g 0 = along a b s) by (apply pt_eq; unfold g, combo, along; simpl; ring).
    assert (Gn : forall l, 0 <= l -> g l <> a).
    { intros l L E. destruct (ar_combo a b a0 s l) as [_ F]. fold (g l) in F. rewrite E in F.
      assert (Z : ar a a a0 = 0) by (unfold ar, cross; ring). nra. }
    assert (G1 : forall l, 0 <= l -> ~ samedir a a0 (g l)).
    { intros l L (k & K & E). destruct (ar_combo a b a0 s l) as [_ F]. fold (g l) in F. rewrite E, ar_along_l in F.
      assert (Z : ar a a0 a0 = 0) by (unfold ar, cross; ring). rewrite Z in F. nra. }
    assert (Gc : forall l, 0 < l -> ccw a b (g l) a0).
    { intros l L. left. destruct (ar_combo a b a0 s l) as [F1 F2]. unfold g. rewrite F1, F2. split; apply pos_prod; lra. }
    assert (G2 : forall l, 0 <= l -> ccw a a1 (g l) a0).
    { intros l L. destruct (Req_dec l 0) as [->|L0].
      - rewrite G0. apply ccw_scale; [lra|exact Ka].
      - apply (ccw_r a a1 b a0 (g l) Ka). apply Gc. lra. }
    assert (Oat : forall l, 0 <= l <= s -> only_at P a (g l)).
    { intros l L e f x He Xe Xa.
      assert (Nx : near d a x) by (apply (near_seg d a (g l)); [apply Nt; lra|exact Xa]).
      destruct (HE e f x He Nx Xe) as [W|W].
      - apply (diff_dir a a0 (g l) x); [|exact W|exact Xa]. apply G1. lra.
      - apply (diff_dir a a1 (g l) x); [|exact W|exact Xa].
        apply (ccw_not_same _ _ _ _ (G2 l (proj1 L))). }
    exists (g s). split; [apply Gn; lra|]. split; [apply Oat; lra|]. split; [|split].
    + apply (ccw_not_same _ _ _ _ (Gc s ltac:(lra))).
    + apply G2. lra.
    + rewrite <- G0. apply winding_move. intros [e f] x He Xa Xe. cbn [fst snd] in Xe. destruct Xa as (r & Hr & ->).
      assert (E : along (g 0) (g s) r = g (r * s)) by (apply pt_eq; unfold g, along, combo; simpl; ring).
      rewrite E in Xe. apply (Gn (r * s)); [nra|].
      apply (Oat (r * s) ltac:(nra) e f (g (r * s)) He Xe). apply on_seg_r.
Qed.

Lemma gl_a : forall c, c <> a -> only_at P a c ->
  (ccw a a1 c a0 -> winding P c = 1%Z) /\ (~ ccw a a1 c a0 -> winding P c = 0%Z).
Proof.
  intros c Nc O. destruct (classic (samedir a b c)) as [D|D]; [|now apply gl_a_off].
  destruct D as (k & K & E).
  assert (Kc : ccw a a1 c a0) by (rewrite E; apply ccw_scale; assumption).
  split; [intros _|intros N; contradiction].
  destruct gl_push as (d & D & H).
  set (s := Rmin k d). assert (Hs : 0 < s <= d) by (unfold s; split; [now apply Rmin_glb_lt|apply Rmin_r]).
  assert (Hk : s <= k) by (unfold s; apply Rmin_l).
  destruct (H s Hs) as (c' & N' & O' & D' & K' & W).
  destruct (gl_a_off c' N' O' D') as [R _]. rewrite <- (R K'), <- W.
  replace (along a b s) with (along a c (s / k)) by (rewrite E; apply pt_eq; unfold along; simpl; field; lra).
  apply only_at_move; auto. split; [apply Rdiv_lt_0_compat; lra|].
  apply (Rmult_le_reg_r k); [lra|]. unfold Rdiv. rewrite Rmult_assoc, Rinv_l by lra. lra.
Qed.
End Glue.

(** ** Gluing *)
Theorem glue : forall a b X Y a0 a1 b0 b1,
  simple (a :: X ++ b :: Y) -> clear (a :: X ++ b :: Y) a b -> X <> [] -> Y <> [] ->
  In (a0, a) (edges_of (a :: X ++ b :: Y)) -> In (a, a1) (edges_of (a :: X ++ b :: Y)) ->
  In (b0, b) (edges_of (a :: X ++ b :: Y)) -> In (b, b1) (edges_of (a :: X ++ b :: Y)) ->
  ccw a a1 b a0 -> ccw b b1 a b0 -> pos (a :: X ++ [b]) -> pos (b :: Y ++ [a]) -> pos (a :: X ++ b :: Y).
Proof.
  intros a b X Y a0 a1 b0 b1 S C NX NY Ea0 Ea1 Eb0 Eb1 Ka Kb Q1 Q2 z0 z z1 c H0 H1 Nc O.
  pose proof (simple_rot (a :: X) (b :: Y) S) as S'.
  pose proof (clear_sym _ _ _ (clear_rot (a :: X) (b :: Y) a b C)) as C'.
  assert (R : forall e, In e (edges_of (a :: X ++ b :: Y)) -> In e (edges_of (b :: Y ++ a :: X))).
  { intros e He. apply (Permutation_in _ (edges_rot (a :: X) (b :: Y))). exact He. }
  pose proof (only_at_rot (a :: X) (b :: Y) z c O) as O'.
  pose proof (proj1 (proj2 S)) as ND.
  assert (RW : winding (a :: X ++ b :: Y) c = winding (b :: Y ++ a :: X) c) by apply (winding_rot (a :: X) (b :: Y)).
  destruct (edge_ends _ _ _ H1) as [Hz _].
  destruct Hz as [<-|Hz]; [|apply in_app_or in Hz; destruct Hz as [Hz|[<-|Hz]]].
  - rewrite (next_unique _ _ _ _ ND H1 Ea1), (prev_unique _ _ _ _ ND H0 Ea0).
    apply (gl_a a b X Y a0 a1 b0 b1); auto.
  - apply (gl_x a b X Y a0 a1); auto.
  - rewrite (next_unique _ _ _ _ ND H1 Eb1), (prev_unique _ _ _ _ ND H0 Eb0). rewrite RW.
    apply (gl_a b a Y X b0 b1 a0 a1); auto.
  - rewrite RW. apply (gl_x b a Y X b0 b1); auto.
Qed.
