(** * Loops do not take part in splitting (proofs for C152). *)
From Coq Require Import List Arith Bool Lia Reals Lra ZArith.
From Flocq Require Import Core.Core IEEE754.BinarySingleNaN.
From Verif Require Import Scalar Utils Polygon Graph GraphSpec F32 Laws GraphAdd UtilsF32 LoopsSpec.
Import ListNotations.

Section Any.
Context {O : Ops} {T U : Type} (dT : T) (L : Laws O).
Local Notation graph := (PlanarGraph O T U).
Local Notation edge := (Edge U).
Local Notation keep := (fun e : edge => negb (is_loop e)).
Hypothesis on_flat : forall (a p : Vec2 O) b, is_on_line_segment a a p b = false.
Hypothesis cut_flat_l : forall a c d : Vec2 O, calculate_line_segment_intersection a a c d = None.
Hypothesis cut_flat_r : forall a b c : Vec2 O, calculate_line_segment_intersection a b c c = None.

Lemma on_start : forall (a p : Vec2 O) b, is_on_line_segment a p a b = false.
Proof. intros. unfold is_on_line_segment. rewrite (dist_self O L a). now rewrite andb_false_r. Qed.
Lemma on_end : forall (a p : Vec2 O) b, is_on_line_segment a p p b = false.
Proof. intros. unfold is_on_line_segment. rewrite (dist_self O L p). now rewrite andb_false_r. Qed.

Lemma split_loop : forall (ns : list (Node O T)) id es idx idx' rw ad ch, split_at_node_loop ns id idx es = Ok (rw, ad, ch) ->
  exists ch', split_at_node_loop ns id idx' (filter keep es) = Ok (filter keep rw, filter keep ad, ch') /\
    filter is_loop rw = filter is_loop es /\ filter is_loop ad = [].
Proof.
  intros ns id. induction es as [|e es IH]; intros idx idx' rw ad ch H.
  - cbn [split_at_node_loop] in H. inv H. now exists [].
  - cbn [split_at_node_loop] in H. apply bind_ok in H. destruct H as (a & Ha & H). apply bind_ok in H. destruct H as (b & Hb & H).
    apply bind_ok in H. destruct H as (c & Hc & H). apply bind_ok in H. destruct H as ([[rw1 ad1] ch1] & H1 & H).
    cbn [filter]. destruct (is_loop e) eqn:Le; cbn [negb].
    + pose proof Le as E. apply Nat.eqb_eq in E. rewrite <- E, Ha in Hb. inv Hb. rewrite on_flat in H. inv H.
      destruct (IH (S idx) idx' rw1 ad ch H1) as (ch' & E1 & E2 & E3). exists ch'. cbn [filter]. rewrite Le. cbn [negb]. rewrite E2. auto.
    + destruct (IH (S idx) (S idx') rw1 ad1 ch1 H1) as (ch' & E1 & E2 & E3).
      cbn [split_at_node_loop]. rewrite Ha, Hb, Hc. cbn [bind]. rewrite E1. cbn [bind].
      destruct (is_on_line_segment (position a) (position b) (position c) false) eqn:On; inv H.
      * assert (N1 : src e <> id) by (intros Q; rewrite Q, Hc in Ha; inv Ha; now rewrite on_start in On).
        assert (N2 : dst e <> id) by (intros Q; rewrite Q, Hc in Hb; inv Hb; now rewrite on_end in On).
        apply Nat.eqb_neq in N1, N2. eexists. unfold is_loop in *. cbn [filter src dst]. rewrite N1, N2. cbn [negb]. rewrite E2, E3. auto.
      * eexists. cbn [filter]. rewrite Le. cbn [negb]. rewrite E2. auto.
Qed.

Lemma strip_split : forall (g g' : graph) id ces, split_edges_at_node g id = Ok (g', ces) ->
  loops g' = loops g /\ nodes g' = nodes g /\ exists ces', split_edges_at_node (strip g) id = Ok (strip g', ces').
Proof.
  intros g g' id ces H. unfold split_edges_at_node in *. cbn [nodes strip]. destruct (nth_error (nodes g) id); [|inv H; eauto].
  apply bind_ok in H. destruct H as ([[rw ad] ch] & H & E). inv E.
  destruct (split_loop (nodes g) id (edges g) 0 0 rw ad ch H) as (ch' & E1 & E2 & E3). cbn [edges strip]. rewrite E1. cbn [bind].
  unfold loops, strip; cbn [nodes edges]. rewrite !filter_app, E2, E3, app_nil_r. split; [reflexivity|]. split; [reflexivity|]. eexists. reflexivity.
Qed.

Lemma strip_node : forall (g g' : graph) p v i ces, add_node g p v = Ok (g', (i, ces)) ->
  loops g' = loops g /\ exists ces', add_node (strip g) p v = Ok (strip g', (i, ces')).
Proof.
  intros g g' p v i ces H. unfold add_node in *. change (gather_node_positions (strip g)) with (gather_node_positions g).
  destruct (find_closest_to p (gather_node_positions g)) as [k dist]. destruct (olt dist ceps); [inv H; eauto|].
  apply bind_ok in H. destruct H as ([g2 ch] & H & E). inv E.
  destruct (strip_split _ _ _ _ H) as (E1 & E2 & ces' & E3). split; [exact E1|].
  exists ces'. cbn [nodes edges strip node_count] in *. unfold strip in E3 at 1; cbn [nodes edges] in E3.
  change (node_count {| nodes := nodes g ++ [MkNode p v DEFAULT_LABEL]; edges := filter keep (edges g) |}) with
    (node_count {| nodes := nodes g ++ [MkNode p v DEFAULT_LABEL]; edges := edges g |}).
  rewrite E3. reflexivity.
Qed.

Lemma strip_points : forall ps (g g' : graph) cn ce ce' cn' x, split_at_points dT g ps cn ce = Ok (g', (cn', x)) ->
  loops g' = loops g /\ exists x', split_at_points dT (strip g) ps cn ce' = Ok (strip g', (cn', x')).
Proof.
  induction ps as [|p ps IH]; intros g g' cn ce ce' cn' x H.
  - cbn [split_at_points] in *. inv H. eauto.
  - cbn [split_at_points] in *. change (gather_node_positions (strip g)) with (gather_node_positions g).
    destruct (find_closest_to p (gather_node_positions g)) as [k dist]. destruct (olt dist ceps).
    + apply bind_ok in H. destruct H as ([g1 c1] & H1 & H). destruct (strip_split _ _ _ _ H1) as (E1 & _ & c2 & E2).
      rewrite E2. cbn [bind]. rewrite <- E1. exact (IH _ _ _ _ (ce' ++ c2) _ _ H).
    + apply bind_ok in H. destruct H as ([g1 [i c1]] & H1 & H). destruct (strip_node _ _ _ _ _ _ H1) as (E1 & c2 & E2).
      rewrite E2. cbn [bind]. rewrite <- E1. exact (IH _ _ _ _ (ce' ++ c2) _ _ H).
Qed.

Lemma strip_cuts : forall (G G' : graph) id id' e, nodes G' = nodes G -> index (edges G) id = Ok e -> index (edges G') id' = Ok e ->
  forall es idx idx' l, (idx + length es = id)%nat -> (idx' + length (filter keep es) = id')%nat ->
  intersections_loop G id idx (es ++ [e]) = Ok l -> intersections_loop G' id' idx' (filter keep es ++ [e]) = Ok l.
Proof.
  intros G G' id id' e N H1 H2. induction es as [|f es IH]; intros idx idx' l L1 L2 H.
  - cbn in L1, L2. rewrite Nat.add_0_r in L1, L2. subst. cbn [app intersections_loop filter] in *. rewrite Nat.eqb_refl in *. exact H.
  - cbn [app intersections_loop] in H. cbn [length] in L1. replace (Nat.eqb id idx) with false in H by (symmetry; apply Nat.eqb_neq; lia). cbn [negb] in H.
    apply bind_ok in H. destruct H as (p & Hp & H). apply bind_ok in H. destruct H as (q & Hq & H). rewrite H1 in H. cbn [bind] in H.
    apply bind_ok in H. destruct H as (r & Hr & H). apply bind_ok in H. destruct H as (s & Hs & H). apply bind_ok in H. destruct H as (rest & HR & H).
    cbn [filter] in *. destruct (is_loop f) eqn:Lf; cbn [negb] in *.
    + pose proof Lf as E. apply Nat.eqb_eq in E. rewrite <- E, Hp in Hq. inv Hq. rewrite cut_flat_l in H. inv H. apply (IH (S idx)); [lia|lia|exact HR].
    + cbn [length] in L2. cbn [app intersections_loop]. replace (Nat.eqb id' idx') with false by (symmetry; apply Nat.eqb_neq; lia). cbn [negb].
      rewrite N, Hp, Hq, H2. cbn [bind]. rewrite Hr, Hs. cbn [bind]. rewrite (IH (S idx) (S idx') rest ltac:(lia) ltac:(lia) HR). exact H.
Qed.

Lemma flat_cuts : forall (G : graph) id e, index (edges G) id = Ok e -> src e = dst e ->
  forall es idx l, intersections_loop G id idx es = Ok l -> l = [].
Proof.
  intros G id e H1 E. induction es as [|f es IH]; intros idx l H; cbn [intersections_loop] in H; [now inv H|].
  destruct (Nat.eqb id idx); cbn [negb] in H; [exact (IH _ _ H)|].
  apply bind_ok in H. destruct H as (p & Hp & H). apply bind_ok in H. destruct H as (q & Hq & H). rewrite H1 in H. cbn [bind] in H.
  apply bind_ok in H. destruct H as (r & Hr & H). apply bind_ok in H. destruct H as (s & Hs & H). apply bind_ok in H. destruct H as (rest & HR & H).
  rewrite <- E, Hr in Hs. inv Hs. rewrite cut_flat_r in H. inv H. exact (IH _ _ HR).
Qed.

Lemma index_last : forall A (l : list A) x, index (l ++ [x]) (length l) = Ok x.
Proof. intros. unfold index. rewrite nth_error_app2, Nat.sub_diag by lia. reflexivity. Qed.
Lemma index_last' : forall A (l : list A) x, index (l ++ [x]) (length (l ++ [x]) - 1) = Ok x.
Proof. intros. rewrite app_length. cbn. replace (length l + 1 - 1)%nat with (length l) by lia. apply index_last. Qed.

Lemma between_strip : forall (es : list edge) s d, s <> d -> edge_between_loop (filter keep es) s d = edge_between_loop es s d.
Proof.
  intros es s d N. induction es as [|e es IH]; [reflexivity|]. cbn [filter]. destruct (is_loop e) eqn:Le; cbn [negb edge_between_loop]; [|now rewrite IH].
  apply Nat.eqb_eq in Le. replace (Nat.eqb s (src e) && Nat.eqb d (dst e) || Nat.eqb d (src e) && Nat.eqb s (dst e)) with false; [exact IH|].
  symmetry. destruct (Nat.eqb_spec s (src e)), (Nat.eqb_spec d (dst e)), (Nat.eqb_spec d (src e)), (Nat.eqb_spec s (dst e)); try reflexivity; congruence.
Qed.

Lemma strip_edge : forall (g g' : graph) s d u r, s <> d -> add_edge dT g s d u = Ok (g', r) ->
  loops g' = loops g /\ exists r', add_edge dT (strip g) s d u = Ok (strip g', r') /\ new_nodes r' = new_nodes r.
Proof.
  intros g g' s d u r N H. unfold add_edge in *. unfold has_edge_between_nodes in *. cbn [edges strip]. rewrite between_strip by exact N.
  destruct (edge_between_loop (edges g) s d); cbn [negb] in *; [inv H; eauto|].
  change (get_vertex (strip g)) with (get_vertex g).
  destruct (get_vertex g s); [|inv H; eauto]. destruct (get_vertex g d); [|inv H; eauto].
  apply bind_ok in H. destruct H as ([g2 [cn ce]] & H & E). inv E. unfold split_edges_along_edge in *.
  apply bind_ok in H. destruct H as (l & Hl & H). cbn [edges nodes strip edge_count] in *.
  unfold edge_count in *; cbn [edges] in *. set (e := MkEdge s d u DEFAULT_LABEL) in *.
  assert (Ke : is_loop e = false) by (apply Nat.eqb_neq; exact N).
  assert (Hl' : intersections_loop {| nodes := nodes g; edges := filter keep (edges g) ++ [e] |} (length (filter keep (edges g) ++ [e]) - 1) 0 (filter keep (edges g) ++ [e]) = Ok l).
  { eapply (strip_cuts _ _ _ _ e); [| | | | |exact Hl]; cbn [nodes edges]; try reflexivity; try apply index_last'; try (rewrite app_length; cbn; lia). }
  rewrite Hl'. cbn [bind].
  destruct (strip_points _ _ _ _ _ [] _ _ H) as (E1 & x' & E2). unfold loops at 2 in E1; cbn [edges nodes] in E1.
  unfold strip in E2 at 1; cbn [edges nodes] in E2. rewrite filter_app in E2. cbn [filter] in E2. rewrite Ke in E2. cbn [negb] in E2. rewrite E2. cbn [bind].
  split; [rewrite E1, filter_app; cbn [filter]; rewrite Ke; apply app_nil_r|]. eexists. split; reflexivity.
Qed.

Lemma loop_edge : forall (g g' : graph) s u r, add_edge dT g s s u = Ok (g', r) ->
  strip g' = strip g /\
  (~ adjacent g s s -> (s < node_count g)%nat -> g' = MkGraph (nodes g) (edges g ++ [MkEdge s s u DEFAULT_LABEL]) /\ r = AddOk [] [edge_count g]) /\
  (adjacent g s s \/ ~ (s < node_count g)%nat -> g' = g).
Proof.
  intros g g' s u r H. unfold add_edge in H. destruct (has_edge_between_nodes g s s) eqn:B; cbn [negb] in H.
  { apply between_adjacent in B. inv H. split; [reflexivity|]. split; [tauto|]. reflexivity. }
  assert (NA : ~ adjacent g s s) by (rewrite <- between_adjacent; congruence).
  destruct (get_vertex g s) eqn:V.
  - assert (Ls : (s < node_count g)%nat) by (unfold get_vertex in V; apply nth_error_Some; congruence).
    apply bind_ok in H. destruct H as ([g2 [cn ce]] & H & E). inv E. unfold split_edges_along_edge in H.
    apply bind_ok in H. destruct H as (l & Hl & H). cbn [edges nodes edge_count] in *. unfold edge_count in Hl; cbn [edges] in Hl.
    assert (l = []) as -> by (eapply (flat_cuts _ _ (MkEdge s s u DEFAULT_LABEL)); [|reflexivity|exact Hl]; cbn [edges]; apply index_last').
    cbn in H. inv H. unfold strip; cbn [nodes edges]. rewrite filter_app. cbn [filter]. unfold is_loop at 2; cbn [src dst]. rewrite Nat.eqb_refl. cbn [negb].
    rewrite app_nil_r. split; [reflexivity|]. split; [|tauto]. intros _ _. split; [reflexivity|]. unfold edge_count; cbn [edges]. rewrite app_length. cbn. do 2 f_equal. f_equal. lia.
  - inv H. split; [reflexivity|]. split; [|reflexivity]. intros _ Ls. exfalso. unfold get_vertex in V. apply nth_error_None in V. unfold node_count in Ls. lia.
Qed.

Lemma strip_run : forall os (g g' : graph), Forall adding os -> run dT g os = Ok g' ->
  run dT (strip g) (filter plain os) = Ok (strip g') /\
  (forall e, In e (loops g) -> In e (loops g')) /\
  (forall e, In e (loops g') -> In e (loops g) \/ exists s u, In (OAddEdge s s u) os /\ e = MkEdge s s u DEFAULT_LABEL).
Proof.
  induction os as [|o os IH]; intros g g' A H; [inv H; auto|]. inversion A as [|? ? A1 A2]; subst.
  cbn [run] in H. apply bind_ok in H. destruct H as (g1 & H1 & H). destruct (IH g1 g' A2 H) as (R & S1 & S2).
  destruct o as [p v|s d u|i|i]; try contradiction; cbn [step] in H1; apply bind_ok in H1; destruct H1 as ([g2 r] & H1 & E); inv E.
  - destruct r as [i ces]. destruct (strip_node _ _ _ _ _ _ H1) as (E1 & ces' & E2). cbn [filter plain run step]. rewrite E2. cbn [bind]. rewrite E1 in S1, S2.
    split; [exact R|]. split; [exact S1|]. intros e He. destruct (S2 e He) as [?|(s & u & Hin & Eq)]; [now left|right; exists s, u; split; [now right|exact Eq]].
  - cbn [filter plain]. destruct (Nat.eqb_spec s d) as [<-|N]; cbn [negb].
    + destruct (loop_edge _ _ _ _ _ H1) as (E1 & E2 & E3). rewrite E1 in R. split; [exact R|].
      assert (K : loops g1 = loops g \/ loops g1 = loops g ++ [MkEdge s s u DEFAULT_LABEL]).
      { destruct (has_edge_between_nodes g s s) eqn:B; [apply between_adjacent in B; rewrite (E3 (or_introl B)); now left|].
        assert (NA : ~ adjacent g s s) by (rewrite <- between_adjacent; congruence).
        destruct (lt_dec s (node_count g)) as [Ls|Ls]; [|rewrite (E3 (or_intror Ls)); now left].
        destruct (E2 NA Ls) as [-> _]. right. unfold loops; cbn [edges]. rewrite filter_app. cbn [filter]. unfold is_loop at 2; cbn [src dst]. now rewrite Nat.eqb_refl. }
      split; [intros e He; apply S1; destruct K as [->| ->]; [exact He|apply in_or_app; now left]|].
      intros e He. destruct (S2 e He) as [Q|(s' & u' & Hin & Eq)]; [|right; exists s', u'; split; [now right|exact Eq]].
      destruct K as [K|K]; rewrite K in Q; [now left|]. apply in_app_or in Q. destruct Q as [Q|[<-|[]]]; [now left|right; exists s, u; split; [now left|reflexivity]].
    + destruct (strip_edge _ _ _ _ _ _ N H1) as (E1 & r' & E2 & _). cbn [run step]. rewrite E2. cbn [bind]. rewrite E1 in S1, S2.
      split; [exact R|]. split; [exact S1|]. intros e He. destruct (S2 e He) as [?|(s' & u' & Hin & Eq)]; [now left|right; exists s', u'; split; [now right|exact Eq]].
Qed.
End Any.

(** ** Exact arithmetic *)
Lemma XO_on_flat : forall (a p : Vec2 XO) b, is_on_line_segment a a p b = false.
Proof.
  intros a p b. unfold is_on_line_segment. rewrite (distance_sym XO_laws p a).
  assert (D : @distance XO a a = Some 0%R \/ @distance XO a a = None).
  { destruct a as [[x|] [y|]]; unfold distance, p_norm, p_dot, p_sub; simpl; auto. left.
    replace ((x - x) * (x - x) + (y - y) * (y - y))%R with 0%R by ring. destruct (Rlt_dec 0 0); [lra|]. now rewrite sqrt_0. }
  destruct (@distance XO a p) as [t|]; [|destruct D as [-> | ->]; reflexivity].
  destruct D as [-> | ->]; [|reflexivity]. cbn [XO oabs olt oadd osub lift1 lift2 xcmp ceps].
  destruct (Rltb eps32 (Rabs t)) eqn:E; [|now rewrite andb_false_r]. rewrite Rltb_true in E.
  replace (Rltb (Rabs (t + t - 0)) eps32) with false; [reflexivity|]. symmetry. apply Rltb_false.
  replace (t + t - 0)%R with (2 * t)%R by ring. rewrite Rabs_mult, (Rabs_pos_eq 2) by lra. pose proof (Rabs_pos t). lra.
Qed.
Lemma xdiv_zero : forall x, xdiv x (Some 0%R) = None.
Proof. intros [x|]; unfold xdiv; [|reflexivity]. destruct (Req_EM_T 0 0); [reflexivity|congruence]. Qed.
Lemma XO_cut_flat_l : forall a c d : Vec2 XO, calculate_line_segment_intersection a a c d = None.
Proof.
  intros [[ax|] [ay|]] [[cx|] [cy|]] [[dx|] [dy|]]; try reflexivity; unfold calculate_line_segment_intersection;
    cbn [vx vy XO oneg omul oadd osub odiv lift1 lift2]; try reflexivity; try (rewrite andb_false_r; reflexivity).
  replace (- (dx - cx) * (ay - ay) + (ax - ax) * (dy - cy))%R with 0%R by ring. rewrite !xdiv_zero. reflexivity.
Qed.
Lemma XO_cut_flat_r : forall a b c : Vec2 XO, calculate_line_segment_intersection a b c c = None.
Proof.
  intros [[ax|] [ay|]] [[bx|] [by'|]] [[cx|] [cy|]]; try reflexivity; unfold calculate_line_segment_intersection;
    cbn [vx vy XO oneg omul oadd osub odiv lift1 lift2]; try reflexivity; try (rewrite andb_false_r; reflexivity).
  replace (- (cx - cx) * (by' - ay) + (bx - ax) * (cy - cy))%R with 0%R by ring. rewrite !xdiv_zero. reflexivity.
Qed.

(** ** f32 *)
Definition zn (x : f32) : Prop := (exists s, x = B754_zero s) \/ x = B754_nan.
Lemma zn_self : forall x : f32, zn (Bminus mode_NE x x).
Proof.
  intros x. destruct (is_finite x) eqn:F.
  - left. pose proof (Bminus_correct 24 128 _ _ mode_NE x x F F) as H. rewrite Rminus_diag_eq, round_0, Rabs_R0, Rlt_bool_true in H by (auto; try apply bpow_gt_0; apply valid_rnd_N).
    destruct H as (H1 & H2 & _). destruct (Bminus mode_NE x x) as [s|s| |s m e B]; try discriminate; [now exists s|].
    exfalso. cbn [B2R] in H1. apply eq_0_F2R in H1. destruct s; discriminate.
  - right. destruct x as [s|s| |s m e B]; try discriminate; [destruct s|]; reflexivity.
Qed.
Lemma zn_mul_l : forall x y : f32, zn x -> zn (Bmult mode_NE x y).
Proof. intros x y [[s ->]| ->]; destruct y; cbn; (now right) || (left; eexists; reflexivity). Qed.
Lemma zn_mul_r : forall x y : f32, zn y -> zn (Bmult mode_NE x y).
Proof. intros x y [[s ->]| ->]; destruct x; cbn; (now right) || (left; eexists; reflexivity). Qed.
Lemma zn_neg : forall x : f32, zn x -> zn (Bopp x).
Proof. intros x [[s ->]| ->]; [left; eexists; reflexivity|now right]. Qed.
Lemma zn_add : forall x y : f32, zn x -> zn y -> zn (Bplus mode_NE x y).
Proof. intros x y [[s ->]| ->] [[t ->]| ->]; try (now right). left. destruct s, t; eexists; reflexivity. Qed.
Lemma zn_sub : forall x y : f32, zn x -> zn y -> zn (Bminus mode_NE x y).
Proof. intros x y [[s ->]| ->] [[t ->]| ->]; try (now right). left. destruct s, t; eexists; reflexivity. Qed.
Lemma zn_div : forall x y : f32, zn x -> zn y -> Bdiv mode_NE x y = B754_nan.
Proof. intros x y [[s ->]| ->] [[t ->]| ->]; reflexivity. Qed.
Lemma zn_sqrt : forall x : f32, zn x -> zn (Bsqrt mode_NE x).
Proof. intros x [[s ->]| ->]; [left; eexists; reflexivity|now right]. Qed.

Section F32.
Context (lm : Libm).
Lemma FO_cut_flat_l : forall a c d : Vec2 (FO lm), calculate_line_segment_intersection a a c d = None.
Proof.
  intros a c d. unfold calculate_line_segment_intersection. cbn [FO oneg omul oadd osub odiv ole car].
  rewrite (zn_div (Bplus mode_NE (Bmult mode_NE (Bopp (Bminus mode_NE (vy a) (vy a))) _) _)); [reflexivity| |].
  - apply zn_add; apply zn_mul_l; [apply zn_neg|]; apply zn_self.
  - apply zn_add; [apply zn_mul_r|apply zn_mul_l]; apply zn_self.
Qed.
Lemma FO_cut_flat_r : forall a b c : Vec2 (FO lm), calculate_line_segment_intersection a b c c = None.
Proof.
  intros a b c. unfold calculate_line_segment_intersection. cbn [FO oneg omul oadd osub odiv ole car].
  rewrite (zn_div (Bminus mode_NE (Bmult mode_NE (Bminus mode_NE (vx c) (vx c)) _) _)); [cbn; now rewrite andb_false_r| |].
  - apply zn_sub; apply zn_mul_l; apply zn_self.
  - apply zn_add; [apply zn_mul_l; apply zn_neg|apply zn_mul_r]; apply zn_self.
Qed.
Lemma twice_far : forall t z : f32, zn z -> Bltb (f32_of 1 (-23)) (Babs t) = true ->
  Bltb (Babs (Bminus mode_NE (Bplus mode_NE t t) z)) (f32_of 1 (-23)) = false.
Proof.
  intros t z Z E. destruct (is_finite t) eqn:F; [|destruct t as [s|s| |s m e B]; try discriminate; destruct Z as [[u ->]| ->]; destruct s; reflexivity].
  pose proof (Bplus_correct 24 128 _ _ mode_NE t t F F) as H. destruct (Rlt_bool_spec (Rabs (round radix2 (SpecFloat.fexp 24 128) (round_mode mode_NE) (B2R t + B2R t))) (bpow radix2 128)) as [Lt|Ge].
  - destruct H as (H1 & H2 & _). set (y := Bplus mode_NE t t) in *.
    destruct (Bltb (Babs (Bminus mode_NE y z)) (f32_of 1 (-23))) eqn:Q; [|reflexivity]. exfalso.
    assert (Ry : (Rabs (B2R t) <= Rabs (B2R y))%R).
    { rewrite H1. apply abs_round_ge_generic; [apply fexp_correct; reflexivity|apply valid_rnd_N|apply generic_format_abs, generic_format_B2R|].
      replace (B2R t + B2R t)%R with (2 * B2R t)%R by ring. rewrite Rabs_mult, (Rabs_pos_eq 2) by lra. pose proof (Rabs_pos (B2R t)). lra. }
    apply Bltb_true in Q. destruct Q as (Nq & _ & Q). apply Bltb_true in E. destruct E as (_ & _ & E).
    assert (Ez : Bminus mode_NE y z = y \/ (exists s u, y = B754_zero s /\ z = B754_zero u) \/ z = B754_nan).
    { destruct Z as [[u ->]| ->]; [|auto]. destruct y as [s|s| |s m e B]; try discriminate; [|now left]. right. left. exists s, u. auto. }
    rewrite (ext_finite (Babs t)), B2R_Babs in E by (now rewrite is_finite_Babs).
    assert (P : Bltb (B754_zero false : f32) (f32_of 1 (-23)) = true) by (vm_compute; reflexivity).
    apply Bltb_true in P. destruct P as (_ & _ & P). rewrite (ext_finite (B754_zero false) eq_refl) in P. cbn [B2R] in P.
    destruct Ez as [Ez|[(s & u & Ey & _)|Ez]].
    + rewrite Ez, (ext_finite (Babs y)), B2R_Babs in Q by (now rewrite is_finite_Babs). lra.
    + rewrite Ey in Ry. cbn [B2R] in Ry. rewrite Rabs_R0 in Ry. lra.
    + rewrite Ez in Nq. destruct y; discriminate.
  - destruct H as [H _]. destruct (Bplus mode_NE t t) as [s|s| |s m e B]; try discriminate.
    destruct Z as [[u ->]| ->]; destruct s; reflexivity.
Qed.
Lemma FO_on_flat : forall (a p : Vec2 (FO lm)) b, is_on_line_segment a a p b = false.
Proof.
  intros a p b. unfold is_on_line_segment. rewrite (distance_sym (FO_laws lm) p a).
  assert (D : zn (@distance (FO lm) a a)).
  { unfold distance, p_norm, p_dot, p_sub; cbn [FO osub omul oadd osqrt car vx vy]. apply zn_sqrt, zn_add; apply zn_mul_l; apply zn_self. }
  set (t := @distance (FO lm) a p). set (z := @distance (FO lm) a a) in *. cbn [FO oabs olt oadd osub ceps car] in *.
  destruct (Bltb (f32_of 1 (-23)) (Babs t)) eqn:E; [|now rewrite andb_false_r]. rewrite (twice_far t z D E). reflexivity.
Qed.
End F32.
