(** * Edges between nodes that are not a finite distance apart (proofs for C153). *)
From Coq Require Import List Arith Bool Lia Reals ZArith.
From Flocq Require Import Core.Core IEEE754.BinarySingleNaN.
From Verif Require Import Scalar Utils Polygon Graph GraphSpec F32 Laws GraphAdd UtilsF32 LoopsSpec Loops FrozenSpec.
Import ListNotations.

Lemma nf_add_l : forall x y : f32, nf x -> nf (Bplus mode_NE x y).
Proof. intros x y H. rewrite Bplus_comm. now apply nf_add_r. Qed.
Lemma nf_sub_l : forall x y : f32, nf x -> nf (Bminus mode_NE x y).
Proof. unfold nf. intros [s|s| |s m e H] [t|t| |t m' e' H'] K; try discriminate; try reflexivity. simpl. now destruct (Bool.eqb s (negb t)). Qed.
Lemma nf_mul_r : forall x y : f32, nf y -> nf (Bmult mode_NE x y).
Proof. unfold nf. intros [s|s| |s m e H] [t|t| |t m' e' H'] K; try discriminate; reflexivity. Qed.
Lemma nf_opp : forall x : f32, nf x -> nf (Bopp x).
Proof. unfold nf. now intros [s|s| |s m e H]. Qed.
Lemma nf_sqrt : forall x : f32, nf x -> nf (Bsqrt mode_NE x).
Proof. unfold nf. intros [s|s| |s m e H] K; try discriminate; [destruct s|]; reflexivity. Qed.
Lemma nf_div : forall x y : f32, nf x -> nf y -> Bdiv mode_NE x y = B754_nan.
Proof. unfold nf. intros [s|s| |s m e H] [t|t| |t m' e' H'] K K'; try discriminate; reflexivity. Qed.
Lemma nf_small : forall x : f32, nf x -> Bltb (Babs x) (f32_of 1 (-23)) = false.
Proof. unfold nf. intros [s|s| |s m e H] K; try discriminate; [destruct s|]; reflexivity. Qed.

Section F32.
Context {lm : Libm} {T U : Type} (dT : T).
Local Notation graph := (PlanarGraph (FO lm) T U).
Local Notation edge := (Edge U).
Local Notation keep ns := (fun e : edge => negb (frozen ns e)).

Lemma apart_nf : forall a b : Vec2 (FO lm), apart a b = true -> nf (Bminus mode_NE (vx b) (vx a)) \/ nf (Bminus mode_NE (vy b) (vy a)).
Proof. intros a b H. unfold apart in H. apply negb_true_iff, andb_false_iff in H. exact H. Qed.
Lemma minus_finite_sym : forall x y : f32, is_finite (Bminus mode_NE x y) = is_finite (Bminus mode_NE y x).
Proof. intros x y. rewrite <- (is_finite_Babs 24 128 (Bminus mode_NE x y)), Babs_minus_sym. apply is_finite_Babs. Qed.
Lemma apart_sym : forall a b : Vec2 (FO lm), apart a b = apart b a.
Proof. intros a b. unfold apart. do 2 f_equal; apply minus_finite_sym. Qed.
Lemma apart_dist : forall a b : Vec2 (FO lm), apart a b = true -> nf (@distance (FO lm) a b).
Proof.
  intros a b H. unfold distance, p_norm, p_dot, p_sub. cbn [FO osub omul oadd osqrt car vx vy]. apply nf_sqrt.
  destruct (apart_nf a b H); [apply nf_add_l|apply nf_add_r]; now apply nf_mul_l.
Qed.
Lemma on_apart : forall (a b p : Vec2 (FO lm)) f, apart a b = true -> is_on_line_segment a b p f = false.
Proof.
  intros a b p f H. unfold is_on_line_segment. cbn [FO oabs olt oadd osub ceps car]. rewrite nf_small; [reflexivity|].
  apply nf_sub_r. exact (apart_dist a b H).
Qed.
Lemma on_far_l : forall (a b p : Vec2 (FO lm)) f, apart a p = true -> is_on_line_segment a b p f = false.
Proof.
  intros a b p f H. unfold is_on_line_segment. cbn [FO oabs olt oadd osub ceps car]. rewrite nf_small; [reflexivity|].
  apply nf_sub_l, nf_add_l. exact (apart_dist a p H).
Qed.
Lemma on_far_r : forall (a b p : Vec2 (FO lm)) f, apart p b = true -> is_on_line_segment a b p f = false.
Proof.
  intros a b p f H. unfold is_on_line_segment. cbn [FO oabs olt oadd osub ceps car]. rewrite nf_small; [reflexivity|].
  apply nf_sub_l, nf_add_r. exact (apart_dist p b H).
Qed.
Lemma on_near : forall (a b p : Vec2 (FO lm)) f, is_on_line_segment a b p f = true -> apart a p = false /\ apart b p = false.
Proof.
  intros a b p f H. split; apply not_true_is_false; intros A; [rewrite on_far_l in H by exact A|rewrite apart_sym in A; rewrite on_far_r in H by exact A]; discriminate.
Qed.
Lemma cut_apart_l : forall a b c d : Vec2 (FO lm), apart a b = true -> calculate_line_segment_intersection a b c d = None.
Proof.
  intros a b c d H. apply apart_nf in H. unfold calculate_line_segment_intersection. cbn [FO oneg omul oadd osub odiv ole car].
  rewrite (nf_div (Bplus mode_NE (Bmult mode_NE (Bopp (Bminus mode_NE (vy b) (vy a))) _) _)); [reflexivity| |].
  - destruct H as [H|H]; [apply nf_add_r|apply nf_add_l; apply nf_mul_l, nf_opp, H]. now apply nf_mul_l.
  - destruct H as [H|H]; [apply nf_add_r; now apply nf_mul_l|apply nf_add_l; now apply nf_mul_r].
Qed.
Lemma cut_apart_r : forall a b c d : Vec2 (FO lm), apart c d = true -> calculate_line_segment_intersection a b c d = None.
Proof.
  intros a b c d H. apply apart_nf in H. unfold calculate_line_segment_intersection. cbn [FO oneg omul oadd osub odiv ole car].
  rewrite (nf_div (Bminus mode_NE (Bmult mode_NE (Bminus mode_NE (vx d) (vx c)) _) _)); [cbn; now rewrite andb_false_r| |].
  - destruct H as [H|H]; [apply nf_sub_l|apply nf_sub_r]; now apply nf_mul_l.
  - destruct H as [H|H]; [apply nf_add_l; apply nf_mul_l, nf_opp, H|apply nf_add_r; now apply nf_mul_r].
Qed.

Definition ends (n : nat) (e : edge) : Prop := (src e < n /\ dst e < n)%nat.
Lemma index_ok : forall A (l : list A) i x, index l i = Ok x -> nth_error l i = Some x /\ (i < length l)%nat.
Proof. intros A l i x H. unfold index in H. destruct (nth_error l i) eqn:E; inv H. split; [reflexivity|]. apply nth_error_Some. congruence. Qed.

Lemma frozen_loop : forall (ns : list (Node (FO lm) T)) id es idx idx' rw ad ch, split_at_node_loop ns id idx es = Ok (rw, ad, ch) ->
  (exists ch', split_at_node_loop ns id idx' (filter (keep ns) es) = Ok (filter (keep ns) rw, filter (keep ns) ad, ch')) /\
  filter (frozen ns) rw = filter (frozen ns) es /\ filter (frozen ns) ad = [] /\ Forall (ends (length ns)) rw /\ Forall (ends (length ns)) ad.
Proof.
  intros ns id. induction es as [|e es IH]; intros idx idx' rw ad ch H.
  - cbn [split_at_node_loop] in H. inv H. split; [now exists []|]. auto.
  - cbn [split_at_node_loop] in H. apply bind_ok in H. destruct H as (a & Ha & H). apply bind_ok in H. destruct H as (b & Hb & H).
    apply bind_ok in H. destruct H as (c & Hc & H). apply bind_ok in H. destruct H as ([[rw1 ad1] ch1] & H1 & H).
    destruct (index_ok _ _ _ _ Ha) as [Na La]. destruct (index_ok _ _ _ _ Hb) as [Nb Lb]. destruct (index_ok _ _ _ _ Hc) as [Nc Lc].
    assert (Fe : frozen ns e = apart (position a) (position b)) by (unfold frozen, apart_at; now rewrite Na, Nb).
    cbn [filter]. destruct (frozen ns e) eqn:Le; cbn [negb].
    + rewrite on_apart in H by congruence. inv H.
      destruct (IH (S idx) idx' rw1 ad ch H1) as ((ch' & E1) & E2 & E3 & E4 & E5). split; [exists ch'; cbn [filter]; rewrite Le; exact E1|].
      cbn [filter]. rewrite Le, E2. split; [reflexivity|]. split; [exact E3|]. split; [constructor; [split; assumption|exact E4]|exact E5].
    + destruct (IH (S idx) (S idx') rw1 ad1 ch1 H1) as ((ch' & E1) & E2 & E3 & E4 & E5).
      cbn [split_at_node_loop]. rewrite Ha, Hb, Hc. cbn [bind]. rewrite E1. cbn [bind].
      destruct (is_on_line_segment (position a) (position b) (position c) false) eqn:On; inv H.
      * destruct (on_near _ _ _ _ On) as [A1 A2].
        assert (F1 : frozen ns (MkEdge (src e) id (edata e) DEFAULT_LABEL) = false) by (unfold frozen, apart_at; cbn [src dst]; now rewrite Na, Nc).
        assert (F2 : frozen ns (MkEdge (dst e) id (edata e) DEFAULT_LABEL) = false) by (unfold frozen, apart_at; cbn [src dst]; now rewrite Nb, Nc).
        cbn [filter]. rewrite F1, F2. cbn [negb]. split; [eexists; reflexivity|]. rewrite E2, E3. repeat split; auto; constructor; auto; split; assumption.
      * cbn [filter]. rewrite Le. cbn [negb]. split; [eexists; reflexivity|]. rewrite E2. repeat split; auto. constructor; auto. split; assumption.
Qed.

Lemma thaw_split : forall (g g' : graph) id ces, valid g -> split_edges_at_node g id = Ok (g', ces) ->
  valid g' /\ frost g' = frost g /\ nodes g' = nodes g /\ exists ces', split_edges_at_node (thaw g) id = Ok (thaw g', ces').
Proof.
  intros g g' id ces V H. unfold split_edges_at_node in *. cbn [nodes thaw]. destruct (nth_error (nodes g) id); [|inv H; eauto].
  apply bind_ok in H. destruct H as ([[rw ad] ch] & H & E). inv E.
  destruct (frozen_loop (nodes g) id (edges g) 0 0 rw ad ch H) as ((ch' & E1) & E2 & E3 & E4 & E5). cbn [edges thaw]. rewrite E1. cbn [bind].
  split. { intros e He. cbn [edges] in He. apply in_app_or in He. rewrite Forall_forall in E4, E5. cbn [nodes]. destruct He as [He|He]; [exact (E4 e He)|exact (E5 e He)]. }
  split; [unfold frost; cbn [nodes edges]; rewrite filter_app; etransitivity; [apply (f_equal2 (@app _) E2 E3)|apply app_nil_r]|]. split; [reflexivity|].
  unfold thaw; cbn [nodes edges]. rewrite filter_app. eexists. reflexivity.
Qed.

Lemma frozen_app : forall (ns l : list (Node (FO lm) T)) (e : edge), ends (length ns) e -> frozen (ns ++ l) e = frozen ns e.
Proof. intros ns l e [H1 H2]. unfold frozen, apart_at. now rewrite !nth_error_app1 by assumption. Qed.
Lemma keep_app : forall (ns l : list (Node (FO lm) T)) (es : list edge), (forall e, In e es -> ends (length ns) e) ->
  filter (keep (ns ++ l)) es = filter (keep ns) es /\ filter (frozen (ns ++ l)) es = filter (frozen ns) es.
Proof. intros ns l es H. split; apply filter_ext_in; intros e He; now rewrite frozen_app by auto. Qed.

Lemma thaw_node : forall (g g' : graph) p v i ces, valid g -> add_node g p v = Ok (g', (i, ces)) ->
  valid g' /\ (exists l, nodes g' = nodes g ++ l) /\ frost g' = frost g /\ exists ces', add_node (thaw g) p v = Ok (thaw g', (i, ces')).
Proof.
  intros g g' p v i ces V H. unfold add_node in *. change (gather_node_positions (thaw g)) with (gather_node_positions g).
  destruct (find_closest_to p (gather_node_positions g)) as [k dist].
  destruct (olt dist ceps); [inv H; split; [exact V|split; [exists []; now rewrite app_nil_r|eauto]]|].
  apply bind_ok in H. destruct H as ([g2 ch] & H & E). inv E.
  assert (V1 : valid {| nodes := nodes g ++ [MkNode p v DEFAULT_LABEL]; edges := edges g |}).
  { intros e He. cbn [nodes edges] in *. rewrite app_length. destruct (V e He). lia. }
  destruct (thaw_split _ _ _ _ V1 H) as (V2 & E1 & E2 & ces' & E3). split; [exact V2|]. cbn [nodes] in E2. split; [eexists; exact E2|].
  destruct (keep_app (nodes g) [MkNode p v DEFAULT_LABEL] (edges g) V) as [K1 K2].
  unfold frost at 2 in E1; cbn [nodes edges] in E1. rewrite K2 in E1. split; [exact E1|].
  exists ces'. cbn [nodes edges thaw] in *. unfold thaw in E3 at 1; cbn [nodes edges] in E3. rewrite K1 in E3.
  change (node_count {| nodes := nodes g ++ [MkNode p v DEFAULT_LABEL]; edges := filter (keep (nodes g)) (edges g) |}) with
    (node_count {| nodes := nodes g ++ [MkNode p v DEFAULT_LABEL]; edges := edges g |}).
  rewrite E3. reflexivity.
Qed.

Lemma thaw_points : forall ps (g g' : graph) cn ce ce' cn' x, valid g -> split_at_points dT g ps cn ce = Ok (g', (cn', x)) ->
  valid g' /\ (exists l, nodes g' = nodes g ++ l) /\ frost g' = frost g /\ exists x', split_at_points dT (thaw g) ps cn ce' = Ok (thaw g', (cn', x')).
Proof.
  induction ps as [|p ps IH]; intros g g' cn ce ce' cn' x V H.
  - cbn [split_at_points] in *. inv H. split; [exact V|split; [exists []; now rewrite app_nil_r|eauto]].
  - cbn [split_at_points] in *. change (gather_node_positions (thaw g)) with (gather_node_positions g).
    destruct (find_closest_to p (gather_node_positions g)) as [k dist]. destruct (olt dist ceps).
    + apply bind_ok in H. destruct H as ([g1 c1] & H1 & H). destruct (thaw_split _ _ _ _ V H1) as (V1 & E1 & E0 & c2 & E2).
      rewrite E2. cbn [bind]. rewrite <- E1, <- E0. exact (IH _ _ _ _ (ce' ++ c2) _ _ V1 H).
    + apply bind_ok in H. destruct H as ([g1 [i c1]] & H1 & H). destruct (thaw_node _ _ _ _ _ _ V H1) as (V1 & (l & E0) & E1 & c2 & E2).
      rewrite E2. cbn [bind]. rewrite <- E1. destruct (IH _ _ _ _ (ce' ++ c2) _ _ V1 H) as (V2 & (l2 & E3) & E4).
      split; [exact V2|]. split; [exists (l ++ l2); rewrite E3, E0; apply app_assoc_reverse|exact E4].
Qed.

Lemma thaw_cuts : forall (G G' : graph) id id' e, nodes G' = nodes G -> index (edges G) id = Ok e -> index (edges G') id' = Ok e ->
  forall es idx idx' l, (idx + length es = id)%nat -> (idx' + length (filter (keep (nodes G)) es) = id')%nat ->
  intersections_loop G id idx (es ++ [e]) = Ok l -> intersections_loop G' id' idx' (filter (keep (nodes G)) es ++ [e]) = Ok l.
Proof.
  intros G G' id id' e N H1 H2. induction es as [|f es IH]; intros idx idx' l L1 L2 H.
  - cbn in L1, L2. rewrite Nat.add_0_r in L1, L2. subst. cbn [app intersections_loop filter] in *. rewrite Nat.eqb_refl in *. exact H.
  - cbn [app intersections_loop] in H. cbn [length] in L1. replace (Nat.eqb id idx) with false in H by (symmetry; apply Nat.eqb_neq; lia). cbn [negb] in H.
    apply bind_ok in H. destruct H as (p & Hp & H). apply bind_ok in H. destruct H as (q & Hq & H). rewrite H1 in H. cbn [bind] in H.
    apply bind_ok in H. destruct H as (r & Hr & H). apply bind_ok in H. destruct H as (s & Hs & H). apply bind_ok in H. destruct H as (rest & HR & H).
    destruct (index_ok _ _ _ _ Hp) as [Np _]. destruct (index_ok _ _ _ _ Hq) as [Nq _].
    assert (Ff : frozen (nodes G) f = apart (position p) (position q)) by (unfold frozen, apart_at; now rewrite Np, Nq).
    cbn [filter] in *. destruct (frozen (nodes G) f); cbn [negb] in *.
    + rewrite cut_apart_l in H by congruence. inv H. apply (IH (S idx)); [lia|lia|exact HR].
    + cbn [length] in L2. cbn [app intersections_loop]. replace (Nat.eqb id' idx') with false by (symmetry; apply Nat.eqb_neq; lia). cbn [negb].
      rewrite N, Hp, Hq, H2. cbn [bind]. rewrite Hr, Hs. cbn [bind]. rewrite (IH (S idx) (S idx') rest ltac:(lia) ltac:(lia) HR). exact H.
Qed.

Lemma apart_cuts : forall (G : graph) id e, index (edges G) id = Ok e -> frozen (nodes G) e = true ->
  forall es idx l, intersections_loop G id idx es = Ok l -> l = [].
Proof.
  intros G id e H1 E. induction es as [|f es IH]; intros idx l H; cbn [intersections_loop] in H; [now inv H|].
  destruct (Nat.eqb id idx); cbn [negb] in H; [exact (IH _ _ H)|].
  apply bind_ok in H. destruct H as (p & Hp & H). apply bind_ok in H. destruct H as (q & Hq & H). rewrite H1 in H. cbn [bind] in H.
  apply bind_ok in H. destruct H as (r & Hr & H). apply bind_ok in H. destruct H as (s & Hs & H). apply bind_ok in H. destruct H as (rest & HR & H).
  destruct (index_ok _ _ _ _ Hr) as [Nr _]. destruct (index_ok _ _ _ _ Hs) as [Ns _].
  unfold frozen, apart_at in E. rewrite Nr, Ns in E. rewrite cut_apart_r in H by exact E. inv H. exact (IH _ _ HR).
Qed.

Lemma apart_at_sym : forall (ns : list (Node (FO lm) T)) s d, apart_at ns s d = apart_at ns d s.
Proof. intros ns s d. unfold apart_at. destruct (nth_error ns s), (nth_error ns d); try reflexivity. apply apart_sym. Qed.
Lemma between_thaw : forall (ns : list (Node (FO lm) T)) (es : list edge) s d, apart_at ns s d = false -> edge_between_loop (filter (keep ns) es) s d = edge_between_loop es s d.
Proof.
  intros ns es s d N. induction es as [|e es IH]; [reflexivity|]. cbn [filter]. destruct (frozen ns e) eqn:Le; cbn [negb edge_between_loop]; [|now rewrite IH].
  unfold frozen in Le.
  replace (Nat.eqb s (src e) && Nat.eqb d (dst e) || Nat.eqb d (src e) && Nat.eqb s (dst e)) with false; [exact IH|]. symmetry.
  pose proof (apart_at_sym ns s d) as Sy.
  destruct (Nat.eqb_spec s (src e)) as [E1|], (Nat.eqb_spec d (dst e)) as [E2|], (Nat.eqb_spec d (src e)) as [E3|], (Nat.eqb_spec s (dst e)) as [E4|]; try reflexivity;
    exfalso; first [rewrite <- E1, <- E2 in Le; congruence|rewrite <- E3, <- E4 in Le; congruence].
Qed.

Lemma thaw_edge : forall (g g' : graph) s d u r, valid g -> apart_at (nodes g) s d = false -> add_edge dT g s d u = Ok (g', r) ->
  valid g' /\ frost g' = frost g /\ exists r', add_edge dT (thaw g) s d u = Ok (thaw g', r') /\ new_nodes r' = new_nodes r.
Proof.
  intros g g' s d u r V N H. unfold add_edge in *. unfold has_edge_between_nodes in *. cbn [edges thaw]. rewrite between_thaw by exact N.
  destruct (edge_between_loop (edges g) s d); cbn [negb] in *; [inv H; eauto|].
  change (get_vertex (thaw g)) with (get_vertex g).
  destruct (get_vertex g s) eqn:Gs; [|inv H; eauto]. destruct (get_vertex g d) eqn:Gd; [|inv H; eauto].
  assert (Ls : (s < length (nodes g))%nat) by (apply nth_error_Some; unfold get_vertex in Gs; congruence).
  assert (Ld : (d < length (nodes g))%nat) by (apply nth_error_Some; unfold get_vertex in Gd; congruence).
  apply bind_ok in H. destruct H as ([g2 [cn ce]] & H & E). inv E. unfold split_edges_along_edge in *.
  apply bind_ok in H. destruct H as (l & Hl & H). cbn [edges nodes thaw edge_count] in *.
  unfold edge_count in *; cbn [edges] in *. set (e := MkEdge s d u DEFAULT_LABEL) in *.
  assert (Ke : frozen (nodes g) e = false) by exact N.
  assert (Hl' : intersections_loop {| nodes := nodes g; edges := filter (keep (nodes g)) (edges g) ++ [e] |} (length (filter (keep (nodes g)) (edges g) ++ [e]) - 1) 0 (filter (keep (nodes g)) (edges g) ++ [e]) = Ok l).
  { eapply (thaw_cuts {| nodes := nodes g; edges := edges g ++ [e] |} _ _ _ e); [| | | | |exact Hl]; cbn [nodes edges]; try reflexivity; try apply index_last'; try (rewrite app_length; cbn; lia). }
  rewrite Hl'. cbn [bind].
  assert (V1 : valid {| nodes := nodes g; edges := edges g ++ [e] |}).
  { intros f Hf. cbn [nodes edges] in *. apply in_app_or in Hf. destruct Hf as [Hf|[<-|[]]]; [exact (V f Hf)|split; assumption]. }
  destruct (thaw_points _ _ _ _ _ [] _ _ V1 H) as (V2 & _ & E1 & x' & E2). unfold frost at 2 in E1; cbn [edges nodes] in E1.
  unfold thaw in E2 at 1; cbn [edges nodes] in E2. rewrite filter_app in E2. cbn [filter] in E2. rewrite Ke in E2. cbn [negb] in E2. rewrite E2. cbn [bind].
  split; [exact V2|]. split; [rewrite E1, filter_app; cbn [filter]; rewrite Ke; apply app_nil_r|]. eexists. split; reflexivity.
Qed.

Lemma frozen_edge : forall (g g' : graph) s d u r, valid g -> apart_at (nodes g) s d = true -> add_edge dT g s d u = Ok (g', r) ->
  valid g' /\ thaw g' = thaw g /\
  (~ adjacent g s d -> g' = MkGraph (nodes g) (edges g ++ [MkEdge s d u DEFAULT_LABEL]) /\ r = AddOk [] [edge_count g]) /\
  (adjacent g s d -> g' = g).
Proof.
  intros g g' s d u r V A H. unfold add_edge in H. destruct (has_edge_between_nodes g s d) eqn:B; cbn [negb] in H.
  { apply between_adjacent in B. inv H. split; [exact V|]. split; [reflexivity|]. split; [tauto|]. reflexivity. }
  assert (NA : ~ adjacent g s d) by (rewrite <- between_adjacent; congruence).
  assert (Ls : (s < length (nodes g))%nat) by (apply nth_error_Some; unfold apart_at in A; destruct (nth_error (nodes g) s); discriminate).
  assert (Ld : (d < length (nodes g))%nat) by (apply nth_error_Some; unfold apart_at in A; destruct (nth_error (nodes g) s), (nth_error (nodes g) d); discriminate).
  unfold get_vertex in H. destruct (nth_error (nodes g) s) eqn:Es; [|now apply nth_error_None in Es; lia]. destruct (nth_error (nodes g) d) eqn:Ed; [|now apply nth_error_None in Ed; lia].
  apply bind_ok in H. destruct H as ([g2 [cn ce]] & H & E). inv E. unfold split_edges_along_edge in H.
  apply bind_ok in H. destruct H as (l & Hl & H). cbn [edges nodes edge_count] in *. unfold edge_count in Hl; cbn [edges] in Hl.
  assert (l = []) as -> by (refine (apart_cuts _ _ (MkEdge s d u DEFAULT_LABEL) _ _ _ _ _ Hl); [cbn [edges]; apply index_last'|exact A]).
  cbn in H. inv H. split. { intros f Hf. cbn [nodes edges] in *. apply in_app_or in Hf. destruct Hf as [Hf|[<-|[]]]; [exact (V f Hf)|split; assumption]. }
  assert (Fe : frozen (nodes g) (MkEdge s d u DEFAULT_LABEL) = true) by exact A.
  assert (K : filter (keep (nodes g)) (edges g ++ [MkEdge s d u DEFAULT_LABEL]) = filter (keep (nodes g)) (edges g)).
  { rewrite filter_app. replace (filter (keep (nodes g)) [MkEdge s d u DEFAULT_LABEL]) with (@nil edge); [apply app_nil_r|]. unfold filter. now rewrite Fe. }
  split; [unfold thaw; f_equal; exact K|]. split; [|tauto]. intros _. split; [reflexivity|]. unfold edge_count; cbn [edges]. rewrite app_length. cbn. do 2 f_equal. f_equal. lia.
Qed.

Lemma thaw_run : forall os (g g' : graph), valid g -> Forall adding os -> run dT g os = Ok g' ->
  run_thaw dT (thaw g) os = Ok (thaw g').
Proof.
  induction os as [|o os IH]; intros g g' V A H; [inv H; auto|]. inversion A as [|? ? A1 A2]; subst.
  cbn [run] in H. apply bind_ok in H. destruct H as (g1 & H1 & H).
  destruct o as [p v|s d u|i|i]; try contradiction; cbn [step] in H1; apply bind_ok in H1; destruct H1 as ([g2 r] & H1 & E); inv E.
  - destruct r as [i ces]. destruct (thaw_node _ _ _ _ _ _ V H1) as (V1 & _ & E1 & ces' & E2). cbn [run_thaw step]. rewrite E2. cbn [bind]. exact (IH g1 g' V1 A2 H).
  - cbn [run_thaw]. change (nodes (thaw g)) with (nodes g). destruct (apart_at (nodes g) s d) eqn:Ap.
    + destruct (frozen_edge _ _ _ _ _ _ V Ap H1) as (V1 & E1 & _). rewrite <- E1. exact (IH g1 g' V1 A2 H).
    + destruct (thaw_edge _ _ _ _ _ _ V Ap H1) as (V1 & E1 & r' & E2 & _). cbn [step]. rewrite E2. cbn [bind]. exact (IH g1 g' V1 A2 H).
Qed.
End F32.
