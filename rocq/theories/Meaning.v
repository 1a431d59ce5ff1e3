(** * The calls as operations on sets of points. *)
From Coq Require Import Reals Lia Lra List Bool Arith Permutation ZArith Classical.
From Flocq Require Import Core.Core IEEE754.BinarySingleNaN.
From Verif Require Import Scalar Utils Polygon Laws Graph GraphSpec PlaneSpec PlanarSpec GridSpec
  GraphAdd GraphAddProps GraphRemove GraphHistory UtilsReal F32 UtilsF32 PolyF32 PolyNewF32 GraphPlanar GraphSim GridUtils GridSeg GridPrim GridOn
  GridGraph ThroughSpec Through GridThroughSpec GridThrough DrawSpec Draw AnyOrderSpec AnyOrder Removal MeaningSpec.
Import ListNotations.
Local Open Scope R_scope.

(** ** Scenes *)
Lemma scene_refl : forall A, same_scene A A.
Proof. intros A. split; reflexivity. Qed.
Lemma scene_sym : forall A B, same_scene A B -> same_scene B A.
Proof. intros A B [H1 H2]. split; intros x; symmetry; auto. Qed.
Lemma scene_trans : forall A B C, same_scene A B -> same_scene B C -> same_scene A C.
Proof. intros A B C [H1 H2] [H3 H4]. split; intros x; [rewrite H1; apply H3|rewrite H2; apply H4]. Qed.
Lemma linked_imp : forall A B a b, same_scene A B -> linked A a b -> linked B a b.
Proof.
  intros A B a b [H1 H2] (L1 & L2 & L3 & L4 & L5). split; [now apply H1|]. split; [now apply H1|]. split; [exact L3|]. split.
  - intros x Hx. now apply H2, L4.
  - intros x Hx. now apply L5, H1.
Qed.
Lemma linked_same : forall A B a b, same_scene A B -> linked A a b <-> linked B a b.
Proof. intros A B a b H. split; apply linked_imp; [exact H|now apply scene_sym]. Qed.
Lemma linked_sym : forall A a b, linked A a b -> linked A b a.
Proof.
  intros A a b (L1 & L2 & L3 & L4 & L5). split; [exact L2|]. split; [exact L1|]. split; [congruence|]. split.
  - intros x Hx. apply L4. now apply on_sym.
  - intros x Hx Ho. destruct (L5 x Hx (on_sym _ _ _ Ho)); auto.
Qed.
Lemma pair_sym : forall a b c d, same_pair a b c d -> same_pair c d a b.
Proof. intros a b c d [[-> ->]|[-> ->]]; [left|right]; auto. Qed.
Lemma pair_trans : forall a b c d e f, same_pair a b c d -> same_pair c d e f -> same_pair a b e f.
Proof. intros a b c d e f [[-> ->]|[-> ->]] [[-> ->]|[-> ->]]; [left|right|right|left]; auto. Qed.

Lemma after_same : forall w w' A B, same_word w w' -> same_scene A B -> same_scene (after w A) (after w' B).
Proof.
  intros w w' A B W E. pose proof E as [E1 E2].
  destruct w as [x|a b|a b|a|], w' as [x'|a' b'|a' b'|a'|]; cbn [same_word] in W; try discriminate; try (injection W as <-); split; intros y; cbn [after is_node inked].
  - rewrite E1. split; (intros [H|[H K]]; [now left|right; split; [exact H|intros z Hz; apply K; now apply E1]]).
  - apply E2.
  - assert (L : linked A a b <-> linked B a' b').
    { rewrite (linked_same A B a b E). destruct W as [[-> ->]|[-> ->]]; [reflexivity|split; apply linked_sym]. }
    assert (Q : on_segment a b y <-> on_segment a' b' y) by (destruct W as [[-> ->]|[-> ->]]; [reflexivity|split; apply on_sym]).
    now rewrite E1, E2, L, Q.
  - assert (Q : on_segment a b y <-> on_segment a' b' y) by (destruct W as [[-> ->]|[-> ->]]; [reflexivity|split; apply on_sym]). now rewrite E2, Q.
  - rewrite E1. assert (Q : (exists c d, linked A c d /\ ~ same_pair a b c d /\ on_segment c d y) <-> (exists c d, linked B c d /\ ~ same_pair a' b' c d /\ on_segment c d y)).
    { split; intros (c & d & L & N & O); exists c, d.
      - split; [now apply (linked_same A B)|]. split; [|exact O]. intros P. apply N. exact (pair_trans _ _ _ _ _ _ W P).
      - split; [now apply (linked_same A B)|]. split; [|exact O]. intros P. apply N. exact (pair_trans _ _ _ _ _ _ (pair_sym _ _ _ _ W) P). }
    rewrite Q. assert (R : y = a \/ y = b <-> y = a' \/ y = b') by (destruct W as [[-> ->]|[-> ->]]; tauto). rewrite R. reflexivity.
  - split; intros (c & d & L & N & O); exists c, d.
    + split; [now apply (linked_same A B)|]. split; [|exact O]. intros P. apply N. exact (pair_trans _ _ _ _ _ _ W P).
    + split; [now apply (linked_same A B)|]. split; [|exact O]. intros P. apply N. exact (pair_trans _ _ _ _ _ _ (pair_sym _ _ _ _ W) P).
  - rewrite E1, (linked_same A B a y E). assert (Q : (exists c d, linked A c d /\ c <> a /\ d <> a /\ on_segment c d y) <-> (exists c d, linked B c d /\ c <> a /\ d <> a /\ on_segment c d y)).
    { split; intros (c & d & L & N); exists c, d; (split; [now apply (linked_same A B)|exact N]). }
    rewrite Q. reflexivity.
  - split; intros (c & d & L & N); exists c, d; (split; [now apply (linked_same A B)|exact N]).
  - apply E1.
  - apply E2.
Qed.
Lemma after_all_same : forall ws ws' A B, List.Forall2 same_word ws ws' -> same_scene A B -> same_scene (after_all ws A) (after_all ws' B).
Proof.
  intros ws ws' A B F. revert A B. induction F as [|w w' ws ws' H F IH]; intros A B E; [exact E|]. cbn [after_all fold_left]. apply IH. now apply after_same.
Qed.
Lemma shows_same : forall U ps (es : list (Edge U)) A B, shows ps es A -> same_scene A B -> shows ps es B.
Proof. intros U ps es A B [S1 S2] [E1 E2]. split; intros x; [rewrite S1; apply E1|rewrite S2; apply E2]. Qed.

Lemma scene_shows : forall U ps (es : list (Edge U)), shows ps es (scene_of ps es).
Proof. intros U ps es. split; reflexivity. Qed.
Lemma same_shows : forall U1 U2 ps qs (es : list (Edge U1)) (fs : list (Edge U2)) A, same_drawing ps es qs fs -> shows ps es A -> shows qs fs A.
Proof.
  intros U1 U2 ps qs es fs A (E1 & _ & _ & E2 & E3) [S1 S2]. split; intros x; [rewrite <- S1; symmetry; apply E1|]. rewrite <- S2. split.
  - intros (f & Hf & On). destruct (E3 f Hf) as (e & He & Q). exists e. split; [exact He|]. unfold edge_on in *. destruct Q as [[-> ->]|[-> ->]]; [exact On|now apply on_sym].
  - intros (e & He & On). destruct (E2 e He) as (f & Hf & Q). exists f. split; [exact Hf|]. unfold edge_on in *. destruct Q as [[<- <-]|[<- <-]]; [exact On|now apply on_sym].
Qed.

(** ** Links are edges *)
Definition ends_at {U} (ps : list point) (e : Edge U) (a b : point) : Prop := same_pair (pt ps (src e)) (pt ps (dst e)) a b.
Lemma linked_edge : forall U ps (es : list (Edge U)) A, plane_drawing ps es -> shows ps es A ->
  forall a b, linked A a b <-> exists e, In e es /\ ends_at ps e a b.
Proof.
  intros U ps es A P [S1 S2] a b. pose proof P as (ND & V & Pl & _). split.
  - intros (L1 & L2 & L3 & L4 & L5). apply S1, in_pt in L1. apply S1, in_pt in L2. destruct L1 as (i & Hi & ->). destruct L2 as (j & Hj & ->).
    set (e := MkEdge i j tt DEFAULT_LABEL).
    assert (P1 : plane_drawing ps [e]).
    { split; [exact ND|]. split.
      - intros f [<-|[]]. cbn [src dst e]. split; [congruence|auto].
      - split.
        + intros k f Hk [<-|[]] NT On. apply NT. destruct (L5 (pt ps k)) as [E|E]; [apply S1, in_pt; eauto|exact On| |]; [left|right]; symmetry; now apply (pt_inj ps).
        + intros p q f f' x N Hp Hq. destruct p as [|[|]]; cbn in Hp; try discriminate; destruct q as [|[|]]; cbn in Hq; try discriminate. congruence. }
    destruct (edge_same ps ps [e] es P1 P (fun x => iff_refl _)) with (e := e) as (f & Hf & Sf).
    + intros x (f & [<-|[]] & On). apply S2, L4. exact On.
    + now left.
    + exists f. split; [exact Hf|]. destruct Sf as [[E1 E2]|[E1 E2]]; cbn [src dst e] in E1, E2; [left|right]; auto.
  - intros (e & He & Q).
    assert (Lk : linked A (pt ps (src e)) (pt ps (dst e))).
    { destruct (V e He) as (Ne & Ls & Ld). split; [apply S1, in_pt; eauto|]. split; [apply S1, in_pt; eauto|]. split; [intros E; apply Ne; now apply (pt_inj ps)|]. split.
      - intros x Hx. apply S2. exists e. auto.
      - intros x Hx On. apply S1 in Hx. exact (node_end _ ps es e x P He Hx On). }
    destruct Q as [[<- <-]|[<- <-]]; [exact Lk|now apply linked_sym].
Qed.
Lemma ends_slot : forall U ps (es : list (Edge U)) i j e f, plane_drawing ps es -> nth_error es i = Some e -> nth_error es j = Some f ->
  same_pair (pt ps (src e)) (pt ps (dst e)) (pt ps (src f)) (pt ps (dst f)) -> i = j.
Proof. intros U ps es i j e f P Hi Hj Q. exact (no_parallel_pos _ ps es i j e f P Hi Hj Q). Qed.
Lemma linked_e : forall U ps (es : list (Edge U)) A e, plane_drawing ps es -> shows ps es A -> In e es -> linked A (pt ps (src e)) (pt ps (dst e)).
Proof. intros U ps es A e P Sh He. apply (linked_edge U ps es A P Sh). exists e. split; [exact He|left; auto]. Qed.
Lemma ends_on : forall U ps (e : Edge U) a b x, ends_at ps e a b -> (edge_on ps e x <-> on_segment a b x).
Proof. intros U ps e a b x [[<- <-]|[<- <-]]; [reflexivity|split; apply on_sym]. Qed.
Lemma near_flip : forall a b x, near a b x -> near b a x.
Proof. intros a b x (H1 & H2 & H3). unfold near. rewrite (dist_sym b x), (dist_sym x a), (dist_sym b a). split; [lra|auto]. Qed.
Lemma ends_near : forall U ps (e : Edge U) a b x, ends_at ps e a b -> (edge_near ps e x <-> near a b x).
Proof. intros U ps e a b x [[<- <-]|[<- <-]]; [reflexivity|]. split; apply near_flip. Qed.

(** ** One call *)
Section Exact.
Context {T U : Type} (dT : T).
Local Notation graph := (PlanarGraph XO T U).

Lemma restricts_nodes : forall keep (g g' : graph) gone sv ps ps', drawn g ps -> drawn g' ps' -> restricts keep g g' gone sv ->
  forall x, In x ps' <-> exists i, (i < length ps)%nat /\ ~ gone i /\ x = pt ps i.
Proof.
  intros keep g g' gone sv ps ps' D D' (Inc & K & Fn & _) x.
  assert (D2 : drawn g' (map (pt ps) keep)).
  { unfold drawn. clear - Fn D. induction Fn as [|n i l l' Hn F IH]; [reflexivity|]. cbn [map]. rewrite IH. f_equal. now apply (drawn_nth g). }
  rewrite (drawn_fun _ _ _ D' D2), in_map_iff. split.
  - intros (i & <- & Hi). apply K in Hi. rewrite (drawn_length _ _ D) in Hi. exists i. tauto.
  - intros (i & Hi & N & ->). exists i. split; [reflexivity|]. apply K. rewrite (drawn_length _ _ D). tauto.
Qed.

Lemma node_of : forall U' ps (es : list (Edge U')) k e, well_drawn ps es -> (k < length ps)%nat -> In e es -> edge_on ps e (pt ps k) -> touches k e.
Proof.
  intros U' ps es k e W Hk He On. destruct W as (_ & _ & _ & P & _). destruct (classic (touches k e)) as [H|N]; [exact H|]. exfalso. exact (P k e Hk He N On).
Qed.
Lemma touches_on : forall U' ps k (e : Edge U'), touches k e -> edge_on ps e (pt ps k).
Proof. intros U' ps k e [<-|<-]; [exists 0; split; [lra|symmetry; apply along_0]|exists 1; split; [lra|symmetry; apply along_1]]. Qed.

Lemma erase_step : forall (g g' : graph) ps A i e r, drawn g ps -> well_drawn ps (edges g) -> shows ps (edges g) A ->
  nth_error (edges g) i = Some e -> remove_edge g i = Ok (g', r) ->
  exists ps', drawn g' ps' /\ well_drawn ps' (edges g') /\ shows ps' (edges g') (after (Erase (pt ps (src e)) (pt ps (dst e))) A).
Proof.
  intros g g' ps A i e r D W Sh E H. destruct (remove_edge_planar g g' ps i r D W H) as (ps' & D' & W' & _ & C').
  exists ps'. split; [exact D'|]. split; [exact W'|]. pose proof (well_plane _ _ _ W) as P. pose proof Sh as [S1 S2].
  pose proof (well_drawn_valid g ps D W) as Hv. assert (NL : ~ lonely_loop g (src e)) by (apply no_loops_not_lonely; eapply well_drawn_no_loops; eassumption).
  destruct (remove_edge_restricts g g' i e r Hv E NL H) as (keep & sv & Pm & R).
  assert (Pm' : Permutation ([e] ++ sv) (edges g)).
  { eapply Permutation_trans; [|apply GraphPlanar.without_perm; exact E]. now apply Permutation_app_head. }
  pose proof (restricts_nodes _ _ _ _ _ _ _ D D' R) as Nx.
  assert (Ink : forall y, covers ps' (edges g') y <-> exists c d, linked A c d /\ ~ same_pair (pt ps (src e)) (pt ps (dst e)) c d /\ on_segment c d y).
  { intros y. rewrite C'. split.
    - intros (j & f & Nj & Hf & On). exists (pt ps (src f)), (pt ps (dst f)). split; [exact (linked_e _ _ _ _ _ P Sh (nth_error_In _ _ Hf))|]. split; [|exact On].
      intros Q. apply Nj. symmetry. exact (ends_slot _ _ _ _ _ _ _ P E Hf Q).
    - intros (c & d & L & N & On). apply (linked_edge _ _ _ _ P Sh) in L. destruct L as (f & Hf & Q). apply In_nth_error in Hf. destruct Hf as [j Hf]. exists j, f. split.
      + intros ->. apply N. rewrite E in Hf. injection Hf as <-. exact Q.
      + split; [exact Hf|]. now apply (ends_on _ _ _ _ _ _ Q). }
  assert (Str : forall k, (k < length ps)%nat -> touches k e -> (degree g k = 1%nat <-> ~ covers ps' (edges g') (pt ps k))).
  { intros k Hk Tk. unfold degree. rewrite <- (degree_perm _ _ k Pm'), degree_app. cbn [degree_in]. rewrite (proj2 (touchesb_iff k e) Tk), C'.
    split.
    - intros Z (j & f & Nj & Hf & On). assert (Z0 : degree_in sv k = 0%nat) by lia. rewrite degree_none in Z0.
      pose proof (node_of _ _ _ _ _ W Hk (nth_error_In _ _ Hf) On) as Tf.
      assert (Hin : In f ([e] ++ sv)) by (apply (Permutation_in _ (Permutation_sym Pm')); exact (nth_error_In _ _ Hf)).
      destruct Hin as [<-|Hin]; [|exact (Z0 f Hin Tf)]. apply Nj. symmetry. apply (ends_slot _ _ _ _ _ _ _ P E Hf). left; auto.
    - intros N. assert (Z0 : degree_in sv k = 0%nat); [|lia]. apply degree_none. intros f Hf Tf. apply N.
      apply (Permutation_in _ Pm) in Hf. unfold without in Hf.
      assert (Wi : exists j, j <> i /\ nth_error (edges g) j = Some f).
      { apply in_app_or in Hf. destruct Hf as [Hf|Hf]; apply In_nth_error in Hf; destruct Hf as [j Hj].
        - exists j. assert (Lj : (j < i)%nat).
          { assert (j < length (firstn i (edges g)))%nat by (apply nth_error_Some; congruence). rewrite firstn_length in *. lia. }
          split; [lia|]. rewrite <- (firstn_skipn i (edges g)). rewrite nth_error_app1; [exact Hj|apply nth_error_Some; congruence].
        - exists (Datatypes.S i + j)%nat. split; [lia|]. assert (Li : (i < length (edges g))%nat) by (apply nth_error_Some; congruence).
          rewrite <- (firstn_skipn (Datatypes.S i) (edges g)). rewrite nth_error_app2; rewrite firstn_length; [|lia].
          replace (Datatypes.S i + j - Nat.min (Datatypes.S i) (length (edges g)))%nat with j by lia. exact Hj. }
      destruct Wi as (j & Nj & Hj). exists j, f. split; [exact Nj|]. split; [exact Hj|]. now apply touches_on. }
  split; cbn [after is_node inked]; intros x.
  - rewrite Nx, <- Ink. split.
    + intros (k & Hk & N & ->). split; [apply S1, in_pt; eauto|]. intros Q. apply NNPP. intros C.
      assert (Tk : touches k e).
      { destruct P as (_ & V & _). destruct (V e (nth_error_In _ _ E)) as (_ & Ls & Ld). destruct (well_plane _ _ _ W) as (ND & _).
        destruct Q as [Q|Q]; [left|right]; symmetry; now apply (pt_inj ps). }
      apply N. split; [exact Tk|]. now apply Str.
    + intros (Hx & Q). apply S1, in_pt in Hx. destruct Hx as (k & Hk & ->). exists k. split; [exact Hk|]. split; [|reflexivity].
      intros (Tk & D1). apply (Str k Hk Tk) in D1. apply D1, Q. destruct Tk as [<-|<-]; auto.
  - apply Ink.
Qed.

Lemma drop_step : forall (g g' : graph) ps A i r, drawn g ps -> well_drawn ps (edges g) -> shows ps (edges g) A ->
  (i < length ps)%nat -> remove_node g i = Ok (g', r) ->
  exists ps', drawn g' ps' /\ well_drawn ps' (edges g') /\ shows ps' (edges g') (after (Drop (pt ps i)) A).
Proof.
  intros g g' ps A i r D W Sh Hi H. destruct (remove_node_planar g g' ps i r D W H) as (ps' & D' & W' & _ & C').
  exists ps'. split; [exact D'|]. split; [exact W'|]. pose proof (well_plane _ _ _ W) as P. pose proof Sh as [S1 S2]. pose proof P as (ND & V & _).
  pose proof (well_drawn_valid g ps D W) as Hv. assert (NL : ~ lonely_loop g i) by (apply no_loops_not_lonely; eapply well_drawn_no_loops; eassumption).
  assert (Hi' : (i < length (nodes g))%nat) by (rewrite (drawn_length _ _ D); exact Hi).
  pose proof (restricts_nodes _ _ _ _ _ _ _ D D' (remove_node_restricts g g' i r Hv Hi' NL H)) as Nx.
  assert (Ink : forall y, covers ps' (edges g') y <-> exists c d, linked A c d /\ c <> pt ps i /\ d <> pt ps i /\ on_segment c d y).
  { intros y. rewrite C'. split.
    - intros (f & Hf & Nt & On). destruct (V f Hf) as (_ & Ls & Ld). exists (pt ps (src f)), (pt ps (dst f)). split; [exact (linked_e _ _ _ _ _ P Sh Hf)|].
      split; [|split; [|exact On]]; intros Q; apply Nt; [left|right]; now apply (pt_inj ps).
    - intros (c & d & L & N1 & N2 & On). apply (linked_edge _ _ _ _ P Sh) in L. destruct L as (f & Hf & Q). exists f. split; [exact Hf|]. split.
      + intros [<-|<-]; destruct Q as [[<- <-]|[<- <-]]; auto.
      + now apply (ends_on _ _ _ _ _ _ Q). }
  assert (Adj : forall k, (k < length ps)%nat -> (adjacent g i k <-> linked A (pt ps i) (pt ps k))).
  { intros k Hk. rewrite (linked_edge _ _ _ _ P Sh). unfold adjacent, joins. split.
    - intros (f & Hf & [[<- <-]|[<- <-]]); exists f; (split; [exact Hf|]); [left|right]; auto.
    - intros (f & Hf & Q). exists f. split; [exact Hf|]. destruct (V f Hf) as (_ & Ls & Ld).
      destruct Q as [[Q1 Q2]|[Q1 Q2]]; apply (pt_inj ps) in Q1, Q2; auto. }
  assert (Str : forall k, (k < length ps)%nat -> k <> i -> adjacent g i k -> (degree g k = 1%nat <-> ~ covers ps' (edges g') (pt ps k))).
  { intros k Hk Nk (e & He & J). apply In_nth_error in He. destruct He as [p Hp]. assert (Tk : touches k e) by (destruct J as [[<- <-]|[<- <-]]; [right|left]; reflexivity).
    assert (Ti : touches i e) by (destruct J as [[<- <-]|[<- <-]]; [left|right]; reflexivity).
    unfold degree. rewrite degree_one, C'. split.
    - intros (q & f & Hq & Tq & Un) (f' & Hf' & Nt & On). apply (node_of _ _ _ _ _ W Hk Hf') in On. apply In_nth_error in Hf'. destruct Hf' as [q' Hq'].
      destruct (Nat.eq_dec q' q) as [->|Nq]; [|exact (Un q' f' Nq Hq' On)]. destruct (Nat.eq_dec p q) as [->|Np]; [|exact (Un p e Np Hp Tk)].
      assert (f' = e) by congruence. subst f'. exact (Nt Ti).
    - intros N. exists p, e. split; [exact Hp|]. split; [exact Tk|]. intros q f Nq Hq Tf.
      destruct (classic (touches i f)) as [Tif|Nt]; [|apply N; exists f; split; [exact (nth_error_In _ _ Hq)|]; split; [exact Nt|now apply touches_on]].
      apply Nq. apply (ends_slot _ _ _ _ _ _ _ P Hq Hp). destruct (V e (nth_error_In _ _ Hp)) as (Ne & _). destruct (V f (nth_error_In _ _ Hq)) as (Nf & _).
      unfold touches in *. unfold same_pair. destruct Tk as [K1|K1], Ti as [K2|K2], Tf as [K3|K3], Tif as [K4|K4]; try congruence; rewrite K1, K2, K3, K4; auto. }
  split; cbn [after is_node inked]; intros x.
  - rewrite Nx, <- Ink. split.
    + intros (k & Hk & N & ->). split; [apply S1, in_pt; eauto|]. unfold to_delete in N. assert (Nk : k <> i) by tauto.
      split; [intros Q; apply Nk; now apply (pt_inj ps)|]. intros L. apply Adj in L; [|exact Hk]. apply NNPP. intros C. apply N. right. split; [exact L|]. now apply Str.
    + intros (Hx & Ni & Q). apply S1, in_pt in Hx. destruct Hx as (k & Hk & ->). exists k. split; [exact Hk|]. split; [|reflexivity].
      intros [->|(L & D1)]; [now apply Ni|]. assert (Nk : k <> i) by (intros ->; now apply Ni). apply (Str k Hk Nk L) in D1. apply D1, Q. now apply Adj.
  - apply Ink.
Qed.

Lemma put_step : forall (g g' : graph) ps A p dat i ces, drawn g ps -> well_drawn ps (edges g) -> shows ps (edges g) A ->
  good_place ps (edges g) p -> add_node g (xp p) dat = Ok (g', (i, ces)) ->
  exists ps', drawn g' ps' /\ well_drawn ps' (edges g') /\ shows ps' (edges g') (after (Put p) A).
Proof.
  intros g g' ps A p dat i ces D W [S1 S2] GP H. destruct (node_full g g' ps p dat i ces D W GP H) as (ps' & D' & W' & C' & I').
  exists ps'. split; [exact D'|]. split; [exact W'|]. split; cbn [after is_node inked]; intros x; [|rewrite C'; apply S2].
  rewrite I', S1. apply add_node_ok in H. destruct H as [(dd & F & Lt & Eg & _)|(dd & j & F & Lt & Ei & Hn & _)];
    destruct (drawn_closest _ _ _ _ _ D F) as [H1 H2].
  - subst g'. rewrite (drawn_fun _ _ _ D' D) in *. destruct (H1 Lt) as [Hi Hd]. split.
    + intros [Hx|Hx]; [now left|]. left. rewrite Hx. apply S1, in_pt. eauto.
    + intros [Hx|(-> & Far)]; [now left|]. exfalso. assert (Nk : is_node A (pt ps i)) by (apply S1, in_pt; eauto). specialize (Far _ Nk). lra.
  - assert (D2 : drawn g' (ps ++ [p])).
    { unfold drawn in *. rewrite Hn, !map_app, D. reflexivity. }
    rewrite (drawn_fun _ _ _ D' D2), Ei, (drawn_length _ _ D), pt_new. split.
    + intros [Hx|Hx]; [now left|]. right. split; [exact Hx|]. intros z Hz. apply S1, in_pt in Hz. destruct Hz as (k & Hk & ->). exact (H2 Lt k Hk).
    + intros [Hx|(Hx & _)]; auto.
Qed.

Lemma join_step : forall (g g' : graph) ps A s d u r, drawn g ps -> well_drawn ps (edges g) -> shows ps (edges g) A ->
  neat_op g (OAddEdge s d u) -> (s < length ps)%nat -> (d < length ps)%nat -> add_edge dT g s d u = Ok (g', r) ->
  exists ps', drawn g' ps' /\ well_drawn ps' (edges g') /\ shows ps' (edges g') (after (Join (pt ps s) (pt ps d)) A).
Proof.
  intros g g' ps A s d u r D W Sh (Nsd & N) Ls Ld H. pose proof (well_plane _ _ _ W) as P. pose proof Sh as [S1 S2]. pose proof P as (ND & V & _).
  assert (Adj : adjacent g s d <-> linked A (pt ps s) (pt ps d)).
  { rewrite (linked_edge _ _ _ _ P Sh). unfold adjacent, joins. split.
    - intros (f & Hf & [[<- <-]|[<- <-]]); exists f; (split; [exact Hf|]); [left|right]; auto.
    - intros (f & Hf & Q). exists f. split; [exact Hf|]. destruct (V f Hf) as (_ & Ls' & Ld').
      destruct Q as [[Q1 Q2]|[Q1 Q2]]; apply (pt_inj ps) in Q1, Q2; auto. }
  pose proof (add_edge_ok dT _ _ _ _ _ _ H) as Q. destruct Q as [(Ad & -> & _)|[(_ & Ms & -> & _)|(NA & Ls' & Ld' & _)]].
  - exists ps. split; [exact D|]. split; [exact W|]. apply Adj in Ad. apply (shows_same _ _ _ A _ Sh). split; cbn [after is_node inked]; intros x.
    + tauto.
    + split; [now left|]. intros [Hx|Hx]; [exact Hx|]. destruct Ad as (_ & _ & _ & C & _). now apply C.
  - exfalso. rewrite (drawn_length _ _ D) in Ms. tauto.
  - destruct N as [B|[B|(ps1 & D1 & UA & PE)]]; [contradiction|tauto|]. rewrite (drawn_fun _ _ _ D1 D) in UA, PE.
    destruct (add_edge_thru dT g g' ps s d u r D W UA Nsd NA Ls Ld H) as (qs & D2 & _ & C2 & I2 & _ & _ & Wi).
    exists (ps ++ qs). split; [exact D2|]. split; [now apply Wi|]. split; cbn [after is_node inked]; intros x.
    + rewrite in_app_iff, I2, <- Adj, <- S1, <- S2. destruct (classic (In x ps)); tauto.
    + now rewrite C2, S2.
Qed.

Lemma means_step : forall (g g' : graph) ps A o w, drawn g ps -> well_drawn ps (edges g) -> shows ps (edges g) A ->
  neat_op g o -> means value_x g ps o w -> step dT g o = Ok g' ->
  exists ps', drawn g' ps' /\ well_drawn ps' (edges g') /\ shows ps' (edges g') (after w A).
Proof.
  intros g g' ps A o w D W Sh N M H. destruct M as [p x dat Hp|s d u Ls Ld|s d u Ms|i e He|i He|i Hi|i Hi]; cbn [step] in H; apply bind_ok in H; destruct H as ([g1 r] & H & E); injection E as <-.
  - destruct N as (ps1 & q & D1 & Eq & GP). rewrite (drawn_fun _ _ _ D1 D) in GP. unfold value_x in Hp. assert (Eqx : q = x) by (rewrite Eq in Hp; now apply xp_inj).
    subst q. rewrite Hp in H. destruct r as [i ces]. exact (put_step g g1 ps A x dat i ces D W Sh GP H).
  - exact (join_step g g1 ps A s d u r D W Sh N Ls Ld H).
  - exists ps. rewrite <- (drawn_length _ _ D) in Ms. destruct (add_edge_ok dT _ _ _ _ _ _ H) as [(_ & -> & _)|[(_ & _ & -> & _)|(_ & Ls & Ld & _)]]; [auto|auto|tauto].
  - exact (erase_step g g1 ps A i e r D W Sh He H).
  - exists ps. unfold remove_edge in H. rewrite He in H. injection H as <- _. auto.
  - exact (drop_step g g1 ps A i r D W Sh Hi H).
  - exists ps. rewrite remove_node_missing in H by (rewrite (drawn_length _ _ D); lia). injection H as <- _. auto.
Qed.

Theorem tells_shows : forall (g g' : graph) ps A os ws, tells dT drawn value_x g os ws g' -> drawn g ps -> well_drawn ps (edges g) ->
  shows ps (edges g) A -> neat dT g os -> exists ps', drawn g' ps' /\ well_drawn ps' (edges g') /\ shows ps' (edges g') (after_all ws A).
Proof.
  intros g g' ps A os ws Te. revert ps A. induction Te as [g|g ps0 o w g1 os ws g2 Pl M H Te IH]; intros ps A D W Sh N.
  - exists ps. auto.
  - destruct N as [N1 N2]. rewrite (drawn_fun _ _ _ Pl D) in M. destruct (means_step g g1 ps A o w D W Sh N1 M H) as (ps1 & D1 & W1 & Sh1).
    exact (IH ps1 (after w A) D1 W1 Sh1 (N2 g1 H)).
Qed.

(** ** Conditions on the words only *)
Lemma plain_neat : forall (g : graph) ps A o w, drawn g ps -> well_drawn ps (edges g) -> shows ps (edges g) A ->
  means value_x g ps o w -> plain w A -> (forall s d u, o = OAddEdge s d u -> s <> d) -> neat_op g o.
Proof.
  intros g ps A o w D W Sh M Pw Nl. pose proof (well_plane _ _ _ W) as P. pose proof Sh as [S1 S2]. pose proof P as (ND & V & _).
  assert (Lk : forall e, In e (edges g) -> linked A (pt ps (src e)) (pt ps (dst e))) by (intros e He; exact (linked_e _ _ _ _ _ P Sh He)).
  assert (Nk : forall k, (k < length ps)%nat -> is_node A (pt ps k)) by (intros k Hk; apply S1, in_pt; eauto).
  destruct M as [p x dat Hp|s d u Ls Ld|s d u Ms|i e He|i He|i Hi|i Hi]; cbn [neat_op]; try exact Logic.I.
  - exists ps, x. split; [exact D|]. split; [exact Hp|]. destruct Pw as [(y & Ny & Hy)|(F & On)].
    + left. apply S1, in_pt in Ny. destruct Ny as (k & Hk & ->). eauto.
    + right. split; [intros k Hk; apply F; auto|]. intros e He. exact (On _ _ (Lk e He)).
  - split; [exact (Nl s d u eq_refl)|]. destruct Pw as (Nab & [L|(Q1 & Q2 & Q3 & Q4 & Q5)]).
    + left. apply (linked_edge _ _ _ _ P Sh) in L. destruct L as (f & Hf & Q). exists f. split; [exact Hf|]. unfold joins. destruct (V f Hf) as (_ & Ls' & Ld').
      destruct Q as [[Q1 Q2]|[Q1 Q2]]; apply (pt_inj ps) in Q1, Q2; auto.
    + right; right. exists ps. split; [exact D|].
      assert (Npt : forall k j, (k < length ps)%nat -> (j < length ps)%nat -> k <> j -> pt ps k <> pt ps j) by (intros k j Hk Hj N E; apply N; now apply (pt_inj ps)).
      split; [split; [|split; [|split]]|].
      * intros k Hk N1 N2. apply Q1; auto.
      * intros e x y He O1 O2. exact (Q3 _ _ x y (Lk e He) O1 O2).
      * intros i e x He O1 O2. destruct (Q4 _ _ x (Lk e (nth_error_In _ _ He)) O1 O2) as [Nx|(F & G0)].
        -- left. apply S1, in_pt in Nx. exact Nx.
        -- right. split; [intros k Hk; apply F; auto|]. intros j f Nj Hj Nr. apply Nj. symmetry.
           apply (ends_slot _ _ _ _ _ _ _ P He Hj). exact (G0 _ _ (Lk f (nth_error_In _ _ Hj)) Nr).
      * intros e f x y He Hf O1 O2. exact (Q5 _ _ _ _ x y (Lk e He) (Lk f Hf) O1 O2).
      * intros k (Hk & N1 & N2 & On). destruct (Q2 (pt ps k) (Nk k Hk) (Npt _ _ Hk Ls N1) (Npt _ _ Hk Ld N2) On) as (c & L & Un).
        unfold degree. apply degree_one. apply (linked_edge _ _ _ _ P Sh) in L. destruct L as (f & Hf & Q). pose proof Hf as Hf'. apply In_nth_error in Hf'. destruct Hf' as [i Hi].
        assert (Tk : touches k f).
        { destruct (V f Hf) as (_ & Ls' & Ld'). destruct Q as [[E1 _]|[_ E1]]; apply (pt_inj ps) in E1; auto; [now left|now right]. }
        exists i, f. split; [exact Hi|]. split; [exact Tk|]. intros j f' Nj Hj Tf. apply Nj. symmetry. apply (ends_slot _ _ _ _ _ _ _ P Hi Hj).
        destruct Tf as [Ef|Ef].
        -- assert (Lf : linked A (pt ps k) (pt ps (dst f'))) by (rewrite <- Ef; apply Lk; exact (nth_error_In _ _ Hj)).
           rewrite Ef, (Un _ Lf). exact Q.
        -- assert (Lf : linked A (pt ps k) (pt ps (src f'))) by (rewrite <- Ef; apply linked_sym, Lk; exact (nth_error_In _ _ Hj)).
           rewrite Ef, (Un _ Lf). destruct Q as [[-> ->]|[-> ->]]; [right|left]; auto.
  - split; [exact (Nl s d u eq_refl)|]. right; left. now rewrite (drawn_length _ _ D).
Qed.

Lemma plain_same : forall w w' A B, same_word w w' -> same_scene A B -> plain w A -> plain w' B.
Proof.
  intros w w' A B W E. pose proof E as [E1 E2]. assert (L : forall c d, linked B c d -> linked A c d) by (intros c d; now apply linked_same).
  destruct w as [x|a b|a b|a|], w' as [x'|a' b'|a' b'|a'|]; cbn [same_word] in W; try discriminate; try (injection W as <-); cbn [plain]; auto.
  - intros [(y & Ny & H)|(F & G0)]; [left; exists y; split; [now apply E1|exact H]|]. right. split; [intros y Ny; apply F; now apply E1|]. intros a b Lb. apply G0. auto.
  - intros (Nab & H).
    assert (Q : forall x, on_segment a' b' x -> on_segment a b x) by (destruct W as [[-> ->]|[-> ->]]; [auto|intros; now apply on_sym]).
    assert (Q' : forall x, on_segment a b x -> on_segment a' b' x) by (destruct W as [[-> ->]|[-> ->]]; [auto|intros; now apply on_sym]).
    assert (Nr : forall x, near a' b' x -> near a b x) by (destruct W as [[-> ->]|[-> ->]]; [auto|intros; now apply near_flip]).
    assert (Ne : forall x, x <> a' -> x <> b' -> x <> a /\ x <> b) by (destruct W as [[-> ->]|[-> ->]]; auto).
    split; [destruct W as [[-> ->]|[-> ->]]; congruence|]. destruct H as [H|(Q1 & Q2 & Q3 & Q4 & Q5)].
    + left. apply (linked_same A B _ _ E). destruct W as [[-> ->]|[-> ->]]; [exact H|now apply linked_sym].
    + right. split; [|split; [|split; [|split]]].
      * intros k Nk N1 N2 Hk. destruct (Ne k N1 N2). apply Q'. apply Q1; auto. now apply E1.
      * intros k Nk N1 N2 Hk. destruct (Ne k N1 N2). destruct (Q2 k) as (c & Lc & Un); auto; [now apply E1|]. exists c. split; [now apply (linked_same A B)|]. intros c' Lc'. apply Un. auto.
      * intros c d x y Lc O1 O2 O3 O4. exact (Q3 c d x y (L _ _ Lc) O1 O2 (Q _ O3) (Q _ O4)).
      * intros c d x Lc O1 O2. destruct (Q4 c d x (L _ _ Lc) O1 (Q _ O2)) as [Nx|(F & G0)]; [left; now apply E1|right]. split; [intros k Nk; apply F; now apply E1|].
        intros c' d' Lc' Hn. apply G0; auto.
      * intros c d c' d' x y Lc Lc' O1 O2 O3 O4. exact (Q5 c d c' d' x y (L _ _ Lc) (L _ _ Lc') O1 O2 (Q _ O3) (Q _ O4)).
Qed.
Lemma plain_all_same : forall ws ws' A B, List.Forall2 same_word ws ws' -> same_scene A B -> plain_all A ws -> plain_all B ws'.
Proof.
  intros ws ws' A B F. revert A B. induction F as [|w w' ws ws' H F IH]; intros A B E P; [exact Logic.I|]. destruct P as [P1 P2].
  split; [exact (plain_same w w' A B H E P1)|]. apply (IH (after w A)); [now apply after_same|exact P2].
Qed.

Lemma word_step : forall (g g' : graph) ps A o w, drawn g ps -> well_drawn ps (edges g) -> shows ps (edges g) A ->
  means value_x g ps o w -> plain w A -> step dT g o = Ok g' ->
  exists ps', drawn g' ps' /\ well_drawn ps' (edges g') /\ shows ps' (edges g') (after w A).
Proof.
  intros g g' ps A o w D W Sh M Pw H. destruct (classic (exists s d u, o = OAddEdge s d u /\ ~ (s < length ps /\ d < length ps)%nat)) as [(s & d & u & -> & Ms)|N].
  - inversion M; subst; [tauto|]. cbn [step] in H. apply bind_ok in H. destruct H as ([g1 r] & H & E). injection E as <-. exists ps. rewrite <- (drawn_length _ _ D) in Ms.
    destruct (add_edge_ok dT _ _ _ _ _ _ H) as [(_ & -> & _)|[(_ & _ & -> & _)|(_ & Ls & Ld & _)]]; [auto|auto|tauto].
  - apply (means_step g g' ps A o w D W Sh); [|exact M|exact H]. apply (plain_neat g ps A o w D W Sh M Pw). intros s d u ->. inversion M; subst.
    + destruct Pw as (Nab & _). intros ->. now apply Nab.
    + exfalso. apply N. exists s, d, u. auto.
Qed.
Theorem words_show : forall (g g' : graph) ps A os ws, tells dT drawn value_x g os ws g' -> drawn g ps -> well_drawn ps (edges g) ->
  shows ps (edges g) A -> plain_all A ws -> exists ps', drawn g' ps' /\ well_drawn ps' (edges g') /\ shows ps' (edges g') (after_all ws A).
Proof.
  intros g g' ps A os ws Te. revert ps A. induction Te as [g|g ps0 o w g1 os ws g2 Pl M H Te IH]; intros ps A D W Sh N.
  - exists ps. auto.
  - destruct N as [N1 N2]. rewrite (drawn_fun _ _ _ Pl D) in M. destruct (word_step g g1 ps A o w D W Sh M N1 H) as (ps1 & D1 & W1 & Sh1).
    exact (IH ps1 (after w A) D1 W1 Sh1 N2).
Qed.

Lemma neat_plain : forall (g : graph) ps A o w, drawn g ps -> well_drawn ps (edges g) -> shows ps (edges g) A ->
  means value_x g ps o w -> neat_op g o -> plain w A.
Proof.
  intros g ps A o w D W Sh M N. pose proof (well_plane _ _ _ W) as P. pose proof Sh as [S1 S2]. pose proof P as (ND & V & _).
  assert (Ed : forall c d, linked A c d -> exists i e, nth_error (edges g) i = Some e /\ ends_at ps e c d).
  { intros c d L. apply (linked_edge _ _ _ _ P Sh) in L. destruct L as (e & He & Q). apply In_nth_error in He. destruct He as [i Hi]. eauto. }
  assert (Nk : forall x, is_node A x -> exists k, (k < length ps)%nat /\ x = pt ps k) by (intros x Hx; now apply in_pt, S1).
  destruct M as [p x dat Hp|s d u Ls Ld|s d u Ms|i e He|i He|i Hi|i Hi]; cbn [plain]; try exact Logic.I.
  - destruct N as (ps1 & q & D1 & Eq & GP). rewrite (drawn_fun _ _ _ D1 D) in GP. unfold value_x in Hp. assert (Eqx : q = x) by (rewrite Eq in Hp; now apply xp_inj). subst q.
    destruct GP as [(k & Hk & Hd)|(F & On)].
    + left. exists (pt ps k). split; [apply S1, in_pt; eauto|exact Hd].
    + right. split; [intros y Hy; destruct (Nk y Hy) as (k & Hk & ->); auto|]. intros a b L Nr. destruct (Ed _ _ L) as (i & e & He & Q).
      apply (ends_on _ _ _ _ _ _ Q). apply (On e (nth_error_In _ _ He)). now apply (ends_near _ _ _ _ _ _ Q).
  - destruct N as (Nsd & N). split; [intros E; apply Nsd; now apply (pt_inj ps)|]. destruct N as [Ad|[Ms|(ps1 & D1 & (G1 & G2 & G3 & G4) & PE)]].
    + left. apply (linked_edge _ _ _ _ P Sh). destruct Ad as (f & Hf & [[<- <-]|[<- <-]]); exists f; (split; [exact Hf|]); [left|right]; auto.
    + rewrite (drawn_length _ _ D) in Ms. tauto.
    + rewrite (drawn_fun _ _ _ D1 D) in *. right. split; [|split; [|split; [|split]]].
      * intros x Hx N1 N2. destruct (Nk x Hx) as (k & Hk & ->). apply G1; auto; congruence.
      * intros x Hx N1 N2 On. destruct (Nk x Hx) as (k & Hk & ->). assert (Pk : passes ps s d k) by (split; [exact Hk|]; split; [congruence|]; split; [congruence|exact On]).
        specialize (PE k Pk). unfold degree in PE. apply degree_one in PE. destruct PE as (i & f & Hi & Tk & Un).
        assert (Lf : linked A (pt ps (src f)) (pt ps (dst f))) by (exact (linked_e _ _ _ _ _ P Sh (nth_error_In _ _ Hi))).
        assert (All : forall c, linked A (pt ps k) c -> ends_at ps f (pt ps k) c).
        { intros c L. destruct (Ed _ _ L) as (j & f' & Hj & Q). destruct (Nat.eq_dec j i) as [->|Nj]; [rewrite Hi in Hj; injection Hj as <-; exact Q|].
          exfalso. apply (Un j f' Nj Hj). destruct (V f' (nth_error_In _ _ Hj)) as (_ & Ls' & Ld').
          destruct Q as [[E1 _]|[_ E1]]; apply (pt_inj ps) in E1; auto; [now left|now right]. }
        destruct (V f (nth_error_In _ _ Hi)) as (Nf & Ls' & Ld').
        destruct Tk as [<-|<-].
        -- exists (pt ps (dst f)). split; [exact Lf|]. intros c' L. destruct (All c' L) as [[_ <-]|[<- E2]]; [reflexivity|]. exfalso. apply Nf. symmetry. now apply (pt_inj ps).
        -- exists (pt ps (src f)). split; [now apply linked_sym|]. intros c' L. destruct (All c' L) as [[E1 _]|[<- _]]; [|reflexivity]. exfalso. apply Nf. now apply (pt_inj ps).
      * intros c d0 x y L O1 O2 O3 O4. destruct (Ed _ _ L) as (i & e & He & Q). apply (G2 e x y (nth_error_In _ _ He)); auto; now apply (ends_on _ _ _ _ _ _ Q).
      * intros c d0 x L O1 O2. destruct (Ed _ _ L) as (i & e & He & Q). destruct (G3 i e x He) as [(k & Hk & ->)|(F & G0)]; [now apply (ends_on _ _ _ _ _ _ Q)|exact O2|left; apply S1, in_pt; eauto|].
        right. split; [intros y Hy; destruct (Nk y Hy) as (k & Hk & ->); auto|]. intros c' d' L' Nr. destruct (Ed _ _ L') as (j & f & Hj & Q').
        destruct (Nat.eq_dec j i) as [->|Nj]; [rewrite He in Hj; injection Hj as <-; exact (pair_trans _ _ _ _ _ _ (pair_sym _ _ _ _ Q) Q')|].
        exfalso. apply (G0 j f Nj Hj). now apply (ends_near _ _ _ _ _ _ Q').
      * intros c d0 c' d' x y L L' O1 O2 O3 O4. destruct (Ed _ _ L) as (i & e & He & Q). destruct (Ed _ _ L') as (j & f & Hj & Q').
        apply (G4 e f x y (nth_error_In _ _ He) (nth_error_In _ _ Hj)); auto; [now apply (ends_on _ _ _ _ _ _ Q)|now apply (ends_on _ _ _ _ _ _ Q')].
Qed.
Theorem neats_plain : forall (g g' : graph) ps A os ws, tells dT drawn value_x g os ws g' -> drawn g ps -> well_drawn ps (edges g) ->
  shows ps (edges g) A -> neat dT g os -> plain_all A ws.
Proof.
  intros g g' ps A os ws Te. revert ps A. induction Te as [g|g ps0 o w g1 os ws g2 Pl M H Te IH]; intros ps A D W Sh N; [exact Logic.I|].
  destruct N as [N1 N2]. rewrite (drawn_fun _ _ _ Pl D) in M. destruct (means_step g g1 ps A o w D W Sh N1 M H) as (ps1 & D1 & W1 & Sh1).
  split; [exact (neat_plain g ps A o w D W Sh M N1)|]. exact (IH ps1 (after w A) D1 W1 Sh1 (N2 g1 H)).
Qed.

Lemma shows_drawing : forall U1 U2 ps qs (es : list (Edge U1)) (fs : list (Edge U2)) A B, plane_drawing ps es -> plane_drawing qs fs ->
  shows ps es A -> shows qs fs B -> same_scene A B -> same_drawing ps es qs fs.
Proof.
  intros U1 U2 ps qs es fs A B P1 P2 [S1 S2] [S3 S4] [E1 E2]. apply drawing_unique; auto; intros x; [rewrite S1, S3; apply E1|rewrite S2, S4; apply E2].
Qed.
Theorem words_same : forall (g1 g1' g2 g2' : graph) ps1 ps2 A os1 os2 ws1 ws2,
  drawn g1 ps1 -> well_drawn ps1 (edges g1) -> shows ps1 (edges g1) A -> drawn g2 ps2 -> well_drawn ps2 (edges g2) -> shows ps2 (edges g2) A ->
  plain_all A ws1 -> List.Forall2 same_word ws1 ws2 -> tells dT drawn value_x g1 os1 ws1 g1' -> tells dT drawn value_x g2 os2 ws2 g2' ->
  exists ps1' ps2', drawn g1' ps1' /\ drawn g2' ps2' /\ same_drawing ps1' (edges g1') ps2' (edges g2').
Proof.
  intros g1 g1' g2 g2' ps1 ps2 A os1 os2 ws1 ws2 D1 W1 S1 D2 W2 S2 P F T1 T2.
  destruct (words_show g1 g1' ps1 A os1 ws1 T1 D1 W1 S1 P) as (qs1 & D1' & W1' & S1').
  destruct (words_show g2 g2' ps2 A os2 ws2 T2 D2 W2 S2 (plain_all_same _ _ _ _ F (scene_refl A) P)) as (qs2 & D2' & W2' & S2').
  exists qs1, qs2. split; [exact D1'|]. split; [exact D2'|]. eapply shows_drawing; [now apply well_plane|now apply well_plane|exact S1'|exact S2'|].
  apply after_all_same; [exact F|apply scene_refl].
Qed.
End Exact.

(** ** f32 on the grids of C90 *)
Section Fam.
Context (lm : Libm) (e : Z) (He : (-22 <= e <= 51)%Z) {T U : Type} (dT : T).
Local Notation G := (grid_le 6 e).
Context (S : point -> point -> Prop).
Hypothesis HonS : forall a b p i, G a -> G b -> G p -> S (toR a) (toR b) ->
  (is_on_line_segment (O := FO lm) a b p i = true <-> inner (toR a) (toR b) (toR p)) /\
  (is_on_line_segment (O := XO) (up a) (up b) (up p) i = true <-> inner (toR a) (toR b) (toR p)).
Hypothesis Hlat : forall a b c d p, G a -> G b -> G c -> G d -> S (toR a) (toR b) -> S (toR c) (toR d) ->
  cross (toR a) (toR b) (toR c) (toR d) <> 0 -> on_segment (toR a) (toR b) p -> on_segment (toR c) (toR d) p ->
  exists m, p = P2 (IZR (fst m) * bpow radix2 e) (IZR (snd m) * bpow radix2 e).
Hypothesis HsplitS : forall a b p, S a b -> on_segment a b p -> S a p /\ S b p.
Local Notation graph := (PlanarGraph (FO lm) T U).
Let S' (a b : Vec2 (FO lm)) : Prop := S (toR a) (toR b).
Local Notation ins := (@GraphSim.inside (FO lm) T U G S').

Lemma fam_means : forall (g : graph) ps o w, means value_f32 g ps o w -> means value_x (exact_graph g) ps (exact_op o) w.
Proof.
  intros g ps o w M. destruct M as [p x dat Hp|s d u Ls Ld|s d u Ms|i f Hf|i Hf|i Hi|i Hi]; cbn [exact_op].
  - apply means_put. unfold value_x, value_f32 in *. now rewrite Hp.
  - now apply means_join.
  - now apply means_join_missing.
  - now apply means_erase.
  - now apply means_erase_missing.
  - now apply means_drop.
  - now apply means_drop_missing.
Qed.
Lemma fam_tells : forall (g g' : graph) os ws, tells dT at_places value_f32 g os ws g' -> ins g -> GridSpec.draws dT G S g os ->
  tells dT (@drawn T U) value_x (exact_graph g) (map exact_op os) ws (exact_graph g').
Proof.
  intros g g' os ws Te. induction Te as [g|g ps0 o w g1 os ws g2 Pl M H Te IH]; intros I D; [constructor|]. destruct D as [D1 D2].
  destruct (fam_step lm e He dT S HonS Hlat HsplitS g o I D1) as [E1 E2]. rewrite H in E1. cbn [rmap] in E1. unfold at_places in Pl. subst ps0.
  cbn [map]. apply (tells_cons dT _ _ _ (places g) _ _ (exact_graph g1) _ _ _ (exact_drawn lm g) (fam_means _ _ _ _ M) E1). apply IH; [exact (E2 g1 H)|exact (D2 g1 H)].
Qed.
Theorem fam_shows : forall (g g' : graph) A os ws, ins g -> well_drawn (places g) (edges g) -> GridSpec.draws dT G S g os -> straights dT g os ->
  tells dT at_places value_f32 g os ws g' -> shows (places g) (edges g) A -> well_drawn (places g') (edges g') /\ shows (places g') (edges g') (after_all ws A).
Proof.
  intros g g' A os ws I W D St Te Sh.
  destruct (tells_shows dT (exact_graph g) (exact_graph g') (places g) A (map exact_op os) ws (fam_tells g g' os ws Te I D) (exact_drawn lm g) W Sh
    (fam_neats lm e He dT S HonS Hlat HsplitS os g I W D St)) as (ps' & D' & W' & Sh').
  rewrite (drawn_fun _ _ _ D' (exact_drawn lm g')) in W', Sh'. split; assumption.
Qed.
Theorem fam_words : forall (g1 g1' g2 g2' : graph) A os1 os2 ws1 ws2, ins g1 -> well_drawn (places g1) (edges g1) -> ins g2 -> well_drawn (places g2) (edges g2) ->
  shows (places g1) (edges g1) A -> shows (places g2) (edges g2) A ->
  GridSpec.draws dT G S g1 os1 -> straights dT g1 os1 -> GridSpec.draws dT G S g2 os2 -> straights dT g2 os2 ->
  tells dT at_places value_f32 g1 os1 ws1 g1' -> tells dT at_places value_f32 g2 os2 ws2 g2' -> List.Forall2 same_word ws1 ws2 ->
  same_drawing (places g1') (edges g1') (places g2') (edges g2').
Proof.
  intros g1 g1' g2 g2' A os1 os2 ws1 ws2 I1 W1 I2 W2 S1 S2 D1 St1 D2 St2 T1 T2 F.
  destruct (fam_shows g1 g1' A os1 ws1 I1 W1 D1 St1 T1 S1) as [W1' S1']. destruct (fam_shows g2 g2' A os2 ws2 I2 W2 D2 St2 T2 S2) as [W2' S2'].
  eapply shows_drawing; [now apply well_plane|now apply well_plane|exact S1'|exact S2'|]. apply after_all_same; [exact F|apply scene_refl].
Qed.
End Fam.

(** ** Every f32 history says exactly one list of words *)
Section Run.
Context {lm : Libm} {T U : Type} (dT : T).
Local Notation graph := (PlanarGraph (FO lm) T U).
Lemma means_total : forall (g : graph) ps o, exists w, means value_f32 g ps o w /\ forall w', means value_f32 g ps o w' -> w' = w.
Proof.
  intros g ps o. destruct o as [p dat|s d u|i|i].
  - exists (Put (real_point p)). split; [now constructor|]. intros w' M. inversion M as [p' x dat' Hp| | | | | |]; subst. unfold value_f32 in Hp. now rewrite Hp.
  - destruct (classic (s < length ps /\ d < length ps)%nat) as [[Ls Ld]|N].
    + eexists. split; [now apply means_join|]. intros w' M. inversion M; subst; [reflexivity|tauto].
    + eexists. split; [now apply means_join_missing|]. intros w' M. inversion M; subst; [tauto|reflexivity].
  - destruct (lt_dec i (length ps)) as [L|N].
    + eexists. split; [now apply means_drop|]. intros w' M. inversion M; subst; [reflexivity|tauto].
    + eexists. split; [now apply means_drop_missing|]. intros w' M. inversion M; subst; [tauto|reflexivity].
  - destruct (nth_error (edges g) i) as [f|] eqn:E.
    + eexists. split; [now apply (means_erase _ g ps i f)|]. intros w' M. inversion M as [| | |i' f' E'|i' E'| |]; subst; [|congruence]. rewrite E in E'. injection E' as <-. reflexivity.
    + eexists. split; [now apply means_erase_missing|]. intros w' M. inversion M as [| | |i' f' E'|i' E'| |]; subst; [congruence|reflexivity].
Qed.
Theorem tells_run : forall os (g g' : graph), run dT g os = Ok g' ->
  exists ws, tells dT at_places value_f32 g os ws g' /\ forall ws' g'', tells dT at_places value_f32 g os ws' g'' -> ws' = ws /\ g'' = g'.
Proof.
  induction os as [|o os IH]; intros g g' R.
  - injection R as <-. exists []. split; [constructor|]. intros ws' g'' H. inversion H; auto.
  - cbn [run] in R. apply bind_ok in R. destruct R as (g1 & R1 & R). destruct (IH g1 g' R) as (ws & Te & Un). destruct (means_total g (places g) o) as (w & M & Uw).
    exists (w :: ws). split; [exact (tells_cons dT _ _ _ _ _ _ _ _ _ _ eq_refl M R1 Te)|]. intros ws' g'' H.
    inversion H as [|g0 ps0 o0 w0 g10 os0 ws0 g20 Pl M0 R0 Te0]; subst. unfold at_places in Pl. subst ps0. rewrite R1 in R0. injection R0 as <-.
    destruct (Un _ _ Te0) as [-> ->]. rewrite (Uw _ M0). auto.
Qed.
End Run.
