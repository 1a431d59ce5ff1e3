(** * Repeating calls, and undoing them (C132, C133) *)
From Coq Require Import ZArith Reals Lia Lra List Bool Arith String Permutation.
From Flocq Require Import Core.Core IEEE754.BinarySingleNaN.
From Verif Require Import Scalar Utils Polygon Graph ListSpec GraphSpec Closest Laws F32 GraphAdd GraphRemove GraphAddProps GraphHistory
  PlaneSpec PlanarSpec DrawSpec UtilsReal GraphPlanar Draw.
Import ListNotations.

(** ** The same node again *)
Section Again.
Context {O : Ops} (L : Laws O) {T U : Type}.
Local Notation graph := (PlanarGraph O T U).

Lemma node_again : forall (g g' : graph) p d d' i es, olt (distance p p) ceps = true ->
  add_node g p d = Ok (g', (i, es)) -> add_node g' p d' = Ok (g', (i, [])).
Proof.
  intros g g' p d d' i es Hp H. apply add_node_ok in H.
  destruct H as [(dist & Hc & Hd & -> & _)|(dist & j & Hc & Hd & -> & Hn & _ & _)].
  - unfold add_node. now rewrite Hc, Hd.
  - unfold add_node. destruct (find_closest_to p (gather_node_positions g')) as [k dk] eqn:F.
    destruct (closest_near L p _ j dist Hc) as [_ N]. specialize (N Hd).
    unfold gather_node_positions in F, N. rewrite Hn, map_app in F. cbn [map position] in F.
    assert (Last : nth_error (map position (nodes g) ++ [p]) (List.length (nodes g)) = Some p).
    { rewrite nth_error_app2 by (rewrite map_length; lia). rewrite map_length, Nat.sub_diag. reflexivity. }
    destruct (closest_near L p _ k dk F) as [A B]. destruct (olt dk ceps) eqn:E.
    + destruct (A eq_refl) as (q & Hq & ->). clear A B.
      destruct (Nat.eq_dec k (List.length (nodes g))) as [->|Nk]; [reflexivity|]. exfalso.
      assert (Kl : k < List.length (nodes g)).
      { assert (k < List.length (map position (nodes g) ++ [p])) by (apply nth_error_Some; congruence).
        rewrite app_length, map_length in H. cbn in H. lia. }
      rewrite nth_error_app1 in Hq by (rewrite map_length; exact Kl). rewrite (N k q Hq) in E. discriminate.
    + exfalso. rewrite (B eq_refl _ _ Last) in Hp. discriminate.
Qed.
End Again.

(** In f32 a finite point is at distance 0 from itself; a point with a NaN or infinite
    coordinate is near nothing. *)
Section AgainF32.
Variable lm : Libm.
Definition finite_point (p : Vec2 (FO lm)) : Prop := is_finite (vx p : f32) = true /\ is_finite (vy p : f32) = true.

Lemma minus_self : forall x : f32, is_finite x = true -> exists s, osub (o := FO lm) x x = B754_zero s.
Proof.
  intros x Fx. change (osub (o := FO lm) x x) with (Bminus (prec := 24) (emax := 128) mode_NE x x).
  pose proof (Bminus_correct 24 128 ltac:(reflexivity) ltac:(reflexivity) mode_NE x x Fx Fx) as H.
  rewrite Rminus_diag_eq, round_0, Rabs_R0, Rlt_bool_true in H by (try reflexivity; try apply valid_rnd_round_mode; apply bpow_gt_0).
  destruct H as (R & F & _). destruct (Bminus mode_NE x x) as [s|s| |s m e He]; try discriminate.
  - now exists s.
  - exfalso. cbn in R. apply eq_0_F2R in R. destruct s; discriminate.
Qed.

Lemma self_distance : forall p, finite_point p -> olt (o := FO lm) (distance p p) ceps = true.
Proof.
  intros [x y] [Fx Fy]. unfold distance, p_norm, p_dot, p_sub; cbn [vx vy] in *.
  destruct (minus_self x Fx) as [s1 ->], (minus_self y Fy) as [s2 ->].
  destruct s1, s2; vm_compute; reflexivity.
Qed.


Definition big (x : f32) : Prop := x = B754_nan \/ x = B754_infinity false.
Lemma big_plus : forall x y : f32, big x \/ big y -> big (oadd (o := FO lm) x y).
Proof. intros [?|[|]| |? ? ? ?] [?|[|]| |? ? ? ?] [[B|B]|[B|B]]; try discriminate; try (now left); now right. Qed.
Lemma big_minus : forall x y : f32, big x -> big (osub (o := FO lm) x y).
Proof. intros [?|[|]| |? ? ? ?] [?|[|]| |? ? ? ?] [B|B]; try discriminate; try (now left); now right. Qed.
Lemma big_sqrt : forall x : f32, big x -> big (osqrt (o := FO lm) x).
Proof. intros x [->| ->]; [now left|now right]. Qed.
Lemma big_square : forall x : f32, (x = B754_nan \/ exists s, x = B754_infinity s) -> big (omul (o := FO lm) x x).
Proof. intros x [->|[[|] ->]]; [now left|now right|now right]. Qed.
Lemma wild_minus : forall x y : f32, is_finite x = false \/ is_finite y = false ->
  (osub (o := FO lm) x y : f32) = B754_nan \/ exists s, (osub (o := FO lm) x y : f32) = B754_infinity s.
Proof. intros [?|[|]| |? ? ? ?] [?|[|]| |? ? ? ?] [B|B]; try discriminate; try (now left); right; eexists; reflexivity. Qed.
Lemma big_not_small : forall x : f32, big x -> olt (o := FO lm) x ceps = false /\ olt (o := FO lm) (oabs (o := FO lm) x) ceps = false.
Proof. intros x [->| ->]; vm_compute; auto. Qed.

Lemma wild_distance : forall p q : Vec2 (FO lm), ~ finite_point p -> big (distance p q) /\ big (distance q p).
Proof.
  intros [x y] [x' y'] W. assert (W' : is_finite (x : f32) = false \/ is_finite (y : f32) = false).
  { unfold finite_point in W; cbn [vx vy] in W. destruct (is_finite (x : f32)); [|now left]. destruct (is_finite (y : f32)); [|now right]. now destruct W. }
  unfold distance, p_norm, p_dot, p_sub; cbn [vx vy].
  split; apply big_sqrt, big_plus; (destruct W' as [W'|W']; [left|right]); apply big_square, wild_minus; auto.
Qed.

Lemma wild_not_on : forall (a b p : Vec2 (FO lm)) f, ~ finite_point p -> is_on_line_segment a b p f = false.
Proof.
  intros a b p f W. unfold is_on_line_segment.
  assert (B : big (osub (oadd (distance a p) (distance p b)) (distance a b))) by (apply big_minus, big_plus; left; now apply wild_distance).
  now rewrite (proj2 (big_not_small _ B)).
Qed.

Lemma wild_node : forall {T U} (g : PlanarGraph (FO lm) T U) p d, valid g -> ~ finite_point p ->
  add_node g p d = Ok (MkGraph (nodes g ++ [MkNode p d DEFAULT_LABEL]) (edges g), (List.length (nodes g), [])).
Proof.
  intros T U g p d V W. destruct (add_node_total g p d V) as [[g' [i es]] E]. rewrite E.
  apply add_node_ok in E. destruct E as [(dist & Hc & Hd & _)|(dist & j & _ & _ & -> & Hn & He & ->)].
  - exfalso. destruct (closest_near (FO_laws lm) p _ i dist Hc) as [A _]. destruct (A Hd) as (q & _ & ->).
    destruct (wild_distance p q W) as [B _]. rewrite (proj1 (big_not_small _ B)) in Hd. discriminate.
  - assert (Off : forall e : Edge U, on_edge (nodes g') (List.length (nodes g)) e = false).
    { intros e. unfold on_edge. replace (pos_at (nodes g') (List.length (nodes g))) with p; [now apply wild_not_on|].
      unfold pos_at. rewrite Hn, nth_error_app2 by lia. now rewrite Nat.sub_diag. }
    assert (F : filter (on_edge (nodes g') (List.length (nodes g))) (edges g) = []).
    { clear -Off. induction (edges g) as [|e es IH]; [reflexivity|]. cbn [filter]. now rewrite Off. }
    assert (S : forall k, slots (on_edge (nodes g') (List.length (nodes g))) k (edges g) = []).
    { clear -Off. induction (edges g) as [|e es IH]; intros k; [reflexivity|]. cbn [slots]. rewrite Off. apply IH. }
    f_equal. f_equal.
    + destruct g' as [ns es]; cbn [nodes edges] in *. subst ns es. f_equal. unfold split_edges. rewrite F. cbn [map]. rewrite app_nil_r.
      rewrite <- (map_id (edges g)) at 2. apply map_ext. intros e. now rewrite Off.
    + unfold split_report. rewrite F, S. reflexivity.
Qed.
End AgainF32.

(** ** A grown graph with as many nodes and edges as before is the same graph *)
Section Grow.
Context {O : Ops} {T U : Type} (dT : T).
Local Notation graph := (PlanarGraph O T U).

Lemma no_split_filter : forall (on : Edge U -> bool) k es, (List.length (split_edges on k es) <= List.length es)%nat -> split_edges on k es = es.
Proof.
  intros on k es H. unfold split_edges in *. rewrite app_length, !map_length in H.
  assert (F : filter on es = []) by (destruct (filter on es); [reflexivity|cbn in H; lia]).
  rewrite F. cbn [map]. rewrite app_nil_r. rewrite <- (map_id es) at 2. apply map_ext_in. intros e He.
  destruct (on e) eqn:E; [|reflexivity]. exfalso. assert (In e []) by (rewrite <- F; apply filter_In; auto). easy.
Qed.
Lemma split_longer : forall (on : Edge U -> bool) k es, (List.length es <= List.length (split_edges on k es))%nat.
Proof. intros. unfold split_edges. rewrite app_length, !map_length. lia. Qed.
Lemma grow_longer : forall (g g' : graph) ns es, grow dT g g' ns es ->
  (List.length (nodes g) <= List.length (nodes g'))%nat /\ (List.length (edges g) <= List.length (edges g'))%nat.
Proof.
  intros g g' ns es H. induction H as [g|g k g1 g2 ns es Hk Hn He H IH|g p j dist g1 g2 ns es Hc Hd Hn He H IH].
  - split; lia.
  - rewrite Hn, He in IH. pose proof (split_longer (on_edge (nodes g) k) k (edges g)). lia.
  - rewrite Hn, He, app_length in IH. pose proof (split_longer (on_edge (nodes g1) (List.length (nodes g))) (List.length (nodes g)) (edges g)). cbn in IH. lia.
Qed.
Lemma grow_same : forall (g g' : graph) ns es, grow dT g g' ns es ->
  (List.length (nodes g') <= List.length (nodes g))%nat -> (List.length (edges g') <= List.length (edges g))%nat -> g' = g /\ ns = [] /\ es = [].
Proof.
  intros g g' ns es H. induction H as [g|g k g1 g2 ns es Hk Hn He H IH|g p j dist g1 g2 ns es Hc Hd Hn He H IH]; intros Ln Le.
  - easy.
  - pose proof (grow_longer _ _ _ _ H) as [L1 L2]. rewrite He in L2.
    pose proof (no_split_filter (on_edge (nodes g) k) k (edges g) ltac:(lia)) as S. rewrite S in He.
    assert (E : g1 = g) by (destruct g1, g; cbn in *; congruence). subst g1.
    destruct (IH Ln Le) as (-> & -> & ->). split; [reflexivity|]. split; [reflexivity|]. rewrite app_nil_r.
    unfold split_edges in S. apply (f_equal (@List.length _)) in S. rewrite app_length, !map_length in S.
    unfold split_report. replace (List.length (filter (on_edge (nodes g) k) (edges g))) with 0%nat by lia. cbn [seq]. rewrite app_nil_r.
    assert (F : filter (on_edge (nodes g) k) (edges g) = []) by (destruct (filter (on_edge (nodes g) k) (edges g)); [reflexivity|cbn in S; lia]).
    destruct (slots (on_edge (nodes g) k) 0 (edges g)) as [|x l] eqn:Sl; [reflexivity|]. exfalso.
    assert (I : In x (slots (on_edge (nodes g) k) 0 (edges g))) by (rewrite Sl; now left).
    apply slots_in in I. destruct I as (_ & e & He' & On). apply nth_error_In in He'.
    assert (In e []) by (rewrite <- F; apply filter_In; auto). easy.
  - pose proof (grow_longer _ _ _ _ H) as [L1 _]. rewrite Hn, app_length in L1. cbn in L1. lia.
Qed.

(** ** Undoing add_edge by remove_edge *)
Lemma plain_edge : forall (g g' : graph) s d u r, add_edge dT g s d u = Ok (g', r) -> ~ adjacent g s d ->
  (s < List.length (nodes g))%nat -> (d < List.length (nodes g))%nat ->
  (List.length (nodes g') = List.length (nodes g))%nat -> (List.length (edges g') = S (List.length (edges g)))%nat ->
  g' = MkGraph (nodes g) (edges g ++ [MkEdge s d u DEFAULT_LABEL]) /\ r = AddOk [] [List.length (edges g)].
Proof.
  intros g g' s d u r H NA Hs Hd Ln Le. apply add_edge_ok in H.
  destruct H as [(A & _)|[(_ & B & _)|(_ & _ & _ & ns & es & G & ->)]]; [easy|now destruct B|].
  destruct (grow_same _ _ _ _ G) as (-> & -> & ->).
  - cbn. lia. - cbn [with_edge edges]. rewrite app_length. cbn. lia.
  - split; [reflexivity|]. f_equal. f_equal. cbn [with_edge edges] in *. rewrite app_length in *. cbn in *. lia.
Qed.

Definition new_edge (s d : nat) (u : U) : Edge U := MkEdge s d u DEFAULT_LABEL.

Lemma degree_with : forall (es : list (Edge U)) s d u i, s <> d ->
  degree_in (es ++ [new_edge s d u]) i = (degree_in es i + (if (i =? s) || (i =? d) then 1 else 0))%nat.
Proof.
  intros es s d u i N. rewrite degree_app. unfold new_edge, touchesb. cbn [degree_in]. unfold touchesb; cbn [src dst].
  rewrite (Nat.eqb_sym s i), (Nat.eqb_sym d i). lia.
Qed.

Lemma filter_keeps : forall (es : list (Edge U)) a, degree_in es a = 0%nat -> filter (fun e => negb (touchesb a e)) es = es.
Proof.
  induction es as [|e es IH]; intros a H; [reflexivity|]. cbn [filter degree_in] in *.
  destruct (touchesb a e); cbn [negb]; [lia|]. rewrite IH by lia. reflexivity.
Qed.

Lemma undo_edge : forall (g : graph) s d u, valid g -> s <> d ->
  (s < List.length (nodes g))%nat -> (d < List.length (nodes g))%nat ->
  let g' := MkGraph (nodes g) (edges g ++ [new_edge s d u]) in
  (degree g s <> 0%nat -> degree g d <> 0%nat -> remove_edge g' (List.length (edges g)) = Panic) /\
  (degree g s = 0%nat \/ degree g d = 0%nat ->
     exists g'' r keep, remove_edge g' (List.length (edges g)) = Ok (g'', r) /\
       restricts keep g g'' (fun i => (i = s \/ i = d) /\ degree g i = 0%nat) (edges g)).
Proof.
  intros g s d u V N Hs Hd g'.
  assert (V' : valid g').
  { intros e He. cbn [edges g'] in He. apply in_app_iff in He. destruct He as [He|[<-|[]]]; [exact (V e He)|]. cbn. lia. }
  assert (En : nth_error (edges g') (List.length (edges g)) = Some (new_edge s d u)).
  { cbn [edges g']. rewrite nth_error_app2, Nat.sub_diag by lia. reflexivity. }
  assert (Dg : forall i, degree g' i = (degree g i + (if (i =? s) || (i =? d) then 1 else 0))%nat) by (intros i; apply degree_with, N).
  assert (Ds : degree g' s = S (degree g s)) by (rewrite Dg, Nat.eqb_refl; cbn [orb]; lia).
  assert (Dd : degree g' d = S (degree g d)) by (rewrite Dg, Nat.eqb_refl, orb_true_r; lia).
  rewrite (remove_edge_cases g' _ _ V' En). cbn [new_edge src dst]. fold (new_edge s d u). rewrite Ds, Dd.
  assert (Key : forall a b, (a = s /\ b = d) \/ (a = d /\ b = s) -> degree g a = 0%nat ->
    exists g'' r keep, remove_node g' a = Ok (g'', r) /\ restricts keep g g'' (fun i => (i = s \/ i = d) /\ degree g i = 0%nat) (edges g)).
  { intros a b Hab Da.
    assert (Ha : (a < List.length (nodes g))%nat) by lia. assert (Da' : degree g' a = 1%nat) by (destruct Hab as [[-> _]|[-> _]]; lia).
    assert (Adj : forall i, adjacent g' a i <-> i = b).
    { intros i. split.
      - intros (e & He & J). cbn [edges g'] in He. apply in_app_iff in He. destruct He as [He|[<-|[]]].
        + exfalso. assert (0 < degree_in (edges g) a)%nat; [|unfold degree in Da; lia]. apply degree_pos. exists e. split; [exact He|]. unfold joins in J. unfold touches. lia.
        + unfold joins in J; cbn [new_edge src dst] in J. lia.
      - intros ->. exists (new_edge s d u). split; [cbn [edges g']; apply in_app_iff; right; now left|]. unfold joins; cbn [new_edge src dst]. lia. }
    assert (NL : ~ lonely_loop g' a) by (intros [A _]; apply Adj in A; lia).
    destruct (remove_node g' a) as [[g'' r]|] eqn:E.
    - exists g'', r, (keep_of g' a). split; [reflexivity|]. pose proof (remove_node_restricts g' g'' a r V' Ha NL E) as (R1 & R2 & R3 & R4).
      split; [exact R1|]. split; [|split; [exact R3|]].
      + intros i. rewrite R2. cbn [nodes g']. unfold to_delete. rewrite (Adj i), Dg.
        assert (Db : forall n : nat, (b =? s) || (b =? d) = true) by (intros _; destruct Hab as [[-> ->]|[-> ->]]; rewrite Nat.eqb_refl, ?orb_true_r; reflexivity).
        split; intros (Hi & Ng); (split; [exact Hi|]); intros X; apply Ng.
        * destruct (Nat.eq_dec i a) as [->|Nia]; [now left|]. right. destruct X as [X Z]. assert (i = b) by lia. subst i. split; [reflexivity|]. rewrite (Db 0%nat), Z. reflexivity.
        * destruct X as [->|(-> & Z)]; [split; [lia|exact Da]|]. rewrite (Db 0%nat) in Z. split; [lia|lia].
      + cbn [edges g'] in R4. rewrite filter_app in R4. cbn [filter] in R4.
        assert (Tb : touchesb a (new_edge s d u) = true) by (apply touchesb_iff; unfold touches; cbn [new_edge src dst]; lia).
        rewrite Tb in R4. cbn [negb] in R4. rewrite app_nil_r, filter_keeps in R4 by exact Da. exact R4.
    - exfalso. apply (remove_node_panics g' a V') in E. destruct E as (_ & [Z|(LL & _)]); [lia|contradiction]. }
  split.
  - intros Ps Pd. destruct (Nat.eqb_spec (S (degree g s)) 1) as [?|_]; [lia|]. destruct (Nat.eqb_spec (S (degree g d)) 1) as [?|_]; [lia|].
    cbn [edges g']. rewrite app_length. cbn [List.length]. rewrite Nat.add_1_r, Nat.eqb_refl. reflexivity.
  - intros Z. destruct (Nat.eqb_spec (S (degree g s)) 1) as [Es|Es].
    + apply (Key s d); [now left|lia].
    + destruct (Nat.eqb_spec (S (degree g d)) 1) as [Ed|Ed]; [|lia]. apply (Key d s); [now right|lia].
Qed.

(** ** Undoing add_node by remove_node *)
Lemma half_ends : forall k (e : Edge U) i, i <> k -> (touches i (half1 k e) \/ touches i (half2 k e)) <-> touches i e.
Proof. intros k e i N. unfold touches, half1, half2; cbn [src dst]. intuition lia. Qed.

Lemma degree_split : forall on k (es : list (Edge U)) i, i <> k -> (forall e, In e es -> src e <> dst e) ->
  degree_in (split_edges on k es) i = degree_in es i.
Proof.
  intros on k es i N NL. unfold split_edges. rewrite degree_app.
  induction es as [|e es IH]; [reflexivity|]. cbn [map filter degree_in].
  assert (IH' := IH (fun f Hf => NL f (or_intror Hf))). pose proof (NL e (or_introl eq_refl)) as Le.
  destruct (on e); cbn [map degree_in]; [|lia].
  assert (K : ((if touchesb i (half1 k e) then 1 else 0) + (if touchesb i (half2 k e) then 1 else 0) = (if touchesb i e then 1 else 0))%nat).
  { unfold touchesb, half1, half2; cbn [src dst]. destruct (Nat.eqb_spec k i) as [?|_]; [lia|]. rewrite !orb_false_r.
    destruct (Nat.eqb_spec (src e) i), (Nat.eqb_spec (dst e) i); cbn [orb]; lia. }
  lia.
Qed.

Lemma touches_new : forall on k (es : list (Edge U)), (forall e, In e es -> src e < k /\ dst e < k)%nat ->
  filter (fun e => negb (touchesb k e)) (split_edges on k es) = filter (fun e => negb (on e)) es.
Proof.
  intros on k es B. unfold split_edges. rewrite filter_app.
  assert (H2 : filter (fun e => negb (touchesb k e)) (map (half2 k) (filter on es)) = []).
  { induction (filter on es) as [|e l IH]; [reflexivity|]. cbn [map filter]. unfold touchesb at 1; cbn [half2 src dst]. now rewrite Nat.eqb_refl, orb_true_r. }
  rewrite H2, app_nil_r. clear H2. induction es as [|e es IH]; [reflexivity|]. cbn [map filter].
  rewrite IH by (intros f Hf; apply B; now right). destruct (B e (or_introl eq_refl)) as [B1 B2]. destruct (on e).
  - unfold touchesb at 1; cbn [half1 src dst]. now rewrite Nat.eqb_refl, orb_true_r.
  - unfold touchesb at 1. destruct (Nat.eqb_spec (src e) k), (Nat.eqb_spec (dst e) k); try lia. reflexivity.
Qed.

Lemma undo_node : forall (g g' : graph) p d k ces, valid g -> no_loops g -> add_node g p d = Ok (g', (k, ces)) -> node_count g' = S (node_count g) ->
  let touched e := is_on_line_segment (pos_at (nodes g) (src e)) (pos_at (nodes g) (dst e)) p false in
  ((forall e, In e (edges g) -> touched e = false) -> remove_node g' k = Panic) /\
  ((exists e, In e (edges g) /\ touched e = true) ->
     exists g'' r keep, remove_node g' k = Ok (g'', r) /\
       restricts keep g g'' (fun i => degree g i = 1%nat /\ exists e, In e (edges g) /\ touched e = true /\ touches i e)
         (filter (fun e => negb (touched e)) (edges g))).
Proof.
  intros g g' p d k ces V NL H C touched. apply add_node_ok in H.
  destruct H as [(dist & _ & _ & -> & _)|(dist & j & _ & _ & -> & Hn & He & _)]; [unfold node_count in C; lia|].
  set (n := List.length (nodes g)) in *.
  assert (On : forall e, In e (edges g) -> on_edge (nodes g') n e = touched e).
  { intros e Hin. destruct (V e Hin) as [B1 B2]. unfold on_edge, touched. f_equal.
    - unfold pos_at. rewrite Hn, nth_error_app1 by exact B1. reflexivity.
    - unfold pos_at. rewrite Hn, nth_error_app1 by exact B2. reflexivity.
    - unfold pos_at. rewrite Hn, nth_error_app2 by lia. unfold n. now rewrite Nat.sub_diag. }
  assert (Bd : forall e, In e (edges g) -> (src e < n /\ dst e < n)%nat) by exact V.
  assert (Ln : List.length (nodes g') = S n) by (rewrite Hn, app_length; cbn; lia).
  assert (V' : valid g').
  { intros e Hin. rewrite He in Hin. unfold split_edges in Hin. apply in_app_iff in Hin. rewrite Ln. destruct Hin as [Hin|Hin]; apply in_map_iff in Hin.
    - destruct Hin as (f & <- & Hf). destruct (Bd f Hf). destruct (on_edge (nodes g') n f); cbn; lia.
    - destruct Hin as (f & <- & Hf). apply filter_In in Hf. destruct (Bd f (proj1 Hf)). cbn; lia. }
  assert (Tn : forall e, In e (edges g') -> touches n e -> exists f, In f (edges g) /\ touched f = true /\ (e = half1 n f \/ e = half2 n f)).
  { intros e Hin Ht. rewrite He in Hin. unfold split_edges in Hin. apply in_app_iff in Hin. destruct Hin as [Hin|Hin]; apply in_map_iff in Hin.
    - destruct Hin as (f & <- & Hf). pose proof (On f Hf) as E. destruct (on_edge (nodes g') n f); [exists f; auto|].
      destruct (Bd f Hf). unfold touches in Ht. lia.
    - destruct Hin as (f & <- & Hf). apply filter_In in Hf. destruct Hf as [Hf Ho]. rewrite On in Ho by exact Hf. exists f; auto. }
  assert (NLn : ~ lonely_loop g' n).
  { intros [(e & Hin & J) _]. destruct (Tn e Hin) as (f & Hf & _ & E); [unfold joins in J; unfold touches; lia|]. destruct (Bd f Hf).
    unfold joins in J. destruct E as [-> | ->]; cbn in J; lia. }
  split.
  - intros None. apply (remove_node_panics g' n V'). split; [lia|]. left. unfold degree.
    destruct (degree_in (edges g') n) as [|m] eqn:Z; [reflexivity|exfalso].
    assert (P : (0 < degree_in (edges g') n)%nat) by lia. apply degree_pos in P. destruct P as (e & Hin & Ht).
    destruct (Tn e Hin Ht) as (f & Hf & Tf & _). rewrite (None f Hf) in Tf. discriminate.
  - intros (f & Hf & Tf).
    assert (Hin1 : forall f, In f (edges g) -> touched f = true -> In (half1 n f) (edges g') /\ In (half2 n f) (edges g')).
    { intros f0 Hf0 Tf0. rewrite He. unfold split_edges. split; apply in_app_iff; [left|right]; apply in_map_iff; exists f0.
      - rewrite On, Tf0 by exact Hf0. auto.
      - split; [reflexivity|]. apply filter_In. rewrite On by exact Hf0. auto. }
    destruct (remove_node g' n) as [[g'' r]|] eqn:E.
    + exists g'', r, (keep_of g' n). split; [reflexivity|].
      pose proof (remove_node_restricts g' g'' n r V' ltac:(lia) NLn E) as (R1 & R2 & R3 & R4).
      assert (K : forall i, In i (keep_of g' n) -> (i < n)%nat).
      { intros i Hi. apply R2 in Hi. destruct Hi as [Hi Ng]. assert (i <> n) by (intros ->; apply Ng; now left). lia. }
      split; [exact R1|]. split; [|split].
      * intros i. rewrite R2, Ln. unfold to_delete.
        assert (Eq : (i < n)%nat -> (adjacent g' n i /\ degree g' i = 1%nat <-> degree g i = 1%nat /\ exists e, In e (edges g) /\ touched e = true /\ touches i e)).
        { intros Hi. assert (Dg : degree g' i = degree g i) by (unfold degree; rewrite He; apply degree_split; [lia|exact NL]). rewrite Dg.
          assert (Ad : adjacent g' n i <-> exists e, In e (edges g) /\ touched e = true /\ touches i e).
          { split.
            - intros (e & Hin & J). destruct (Tn e Hin) as (f0 & Hf0 & Tf0 & Ee); [unfold joins in J; unfold touches; lia|]. exists f0. split; [exact Hf0|]. split; [exact Tf0|].
              apply (half_ends n f0 i ltac:(lia)). unfold joins in J. unfold touches. destruct Ee as [-> | ->]; [left|right]; lia.
            - intros (f0 & Hf0 & Tf0 & Tt). destruct (Hin1 f0 Hf0 Tf0) as [I1 I2]. destruct Tt as [Tt|Tt].
              + exists (half1 n f0). split; [exact I1|]. unfold joins; cbn. auto.
              + exists (half2 n f0). split; [exact I2|]. unfold joins; cbn. auto. }
          rewrite Ad. tauto. }
        split; intros (Hi & Ng).
        -- assert (i <> n) by (intros ->; apply Ng; now left). split; [unfold n in *; lia|]. intros X. apply Ng. right. apply Eq; [lia|exact X].
        -- fold n in Hi. split; [lia|]. intros [->|X]; [lia|]. apply Ng, Eq; assumption.
      * clear -R3 K Hn. assert (K' : forall i, In i (keep_of g' n) -> nth_error (nodes g') i = nth_error (nodes g) i).
        { intros i Hi. rewrite Hn, nth_error_app1 by (apply K, Hi). reflexivity. }
        revert K' R3. generalize (keep_of g' n). intros l K' R3. induction R3 as [|x i ns l Hx R3 IH]; constructor.
        -- rewrite <- K' by now left. exact Hx.
        -- apply IH. intros i' Hi'. apply K'. now right.
      * rewrite He, touches_new in R4 by exact Bd.
        replace (filter (fun e => negb (touched e)) (edges g)) with (filter (fun e => negb (on_edge (nodes g') n e)) (edges g)); [exact R4|].
        apply filter_ext_in. intros e Hin. now rewrite On.
    + exfalso. apply (remove_node_panics g' n V') in E. destruct E as (_ & [Z|(LL & _)]); [|contradiction].
      destruct (Hin1 f Hf Tf) as [I1 _]. assert (0 < degree_in (edges g') n)%nat; [|unfold degree in Z; lia]. apply degree_pos.
      exists (half1 n f). split; [exact I1|]. right. reflexivity.
Qed.

End Grow.

(** ** Removing an edge and drawing it again *)
Section Redraw.
Context {T U : Type} (dT : T).
Local Notation graph := (PlanarGraph XO T U).
Local Open Scope R_scope.
Local Notation length := List.length.

Lemma without_slot : forall (es : list (Edge U)) id f, (id < length es)%nat -> In f (without id es) -> exists j, j <> id /\ nth_error es j = Some f.
Proof.
  intros es id f Hl Hin. apply In_nth_error in Hin. destruct Hin as (i & Hf). unfold without in Hf.
  destruct (lt_dec i id) as [Li|Li].
  - rewrite nth_error_app1 in Hf by (rewrite firstn_length; lia). exists i. split; [lia|].
    rewrite <- (firstn_skipn id es), nth_error_app1 by (rewrite firstn_length; lia). exact Hf.
  - rewrite nth_error_app2, firstn_length, Nat.min_l in Hf by (rewrite ?firstn_length; lia). exists (S i). split; [lia|].
    rewrite <- (firstn_skipn (S id) es), nth_error_app2, firstn_length, Nat.min_l by (rewrite ?firstn_length; lia).
    replace (S i - S id)%nat with (i - id)%nat by lia. exact Hf.
Qed.

Lemma redraw : forall (g : graph) ps id e, drawn g ps -> well_drawn ps (edges g) -> nth_error (edges g) id = Some e ->
  (2 <= degree g (src e))%nat -> (2 <= degree g (dst e))%nat -> (S id < length (edges g))%nat ->
  exists es1 r1, remove_edge g id = Ok (MkGraph (nodes g) es1, r1) /\ Permutation es1 (without id (edges g)) /\
    forall u, add_edge dT (MkGraph (nodes g) es1) (src e) (dst e) u = Ok (MkGraph (nodes g) (es1 ++ [MkEdge (src e) (dst e) u DEFAULT_LABEL]), AddOk [] [(length (edges g) - 1)%nat]).
Proof.
  intros g ps id e D W He Ds Dd Hid. pose proof W as (W1 & W2 & W3 & W4 & W5).
  assert (V : valid g) by (intros f Hf; rewrite (drawn_length _ _ D); now apply W1).
  pose proof (nth_error_In _ _ He) as Hin. destruct (W1 e Hin) as (Nsd & Hs & Hd).
  assert (E : exists es1 r1, remove_edge g id = Ok (MkGraph (nodes g) es1, r1) /\ Permutation es1 (without id (edges g))).
  { rewrite (remove_edge_cases g id e V He). destruct (Nat.eqb_spec (degree g (src e)) 1) as [?|_]; [lia|]. destruct (Nat.eqb_spec (degree g (dst e)) 1) as [?|_]; [lia|].
    destruct (Nat.eqb_spec (S id) (length (edges g))) as [?|_]; [lia|]. destruct (rev (edges g)) as [|last r] eqn:R.
    - exfalso. rewrite <- (rev_length (edges g)), R in Hid. cbn in Hid. lia.
    - eexists _, _. split; [reflexivity|]. now apply swap_remove_perm. }
  destruct E as (es1 & r1 & E & P). set (g1 := MkGraph (nodes g) es1) in *. exists es1, r1. split; [exact E|]. split; [exact P|]. intros u. fold g1.
  assert (Slot : forall f, In f es1 -> exists j, j <> id /\ nth_error (edges g) j = Some f).
  { intros f Hf. apply without_slot; [lia|]. now apply (Permutation_in _ P). }
  assert (Meet : forall f x, In f es1 -> edge_on ps f x -> edge_on ps e x -> x = pt ps (src e) \/ x = pt ps (dst e)).
  { intros f x Hf Ox Ex. destruct (Slot f Hf) as (j & Nj & Hj). destruct (W5 j id f e x Nj Hj He Ox Ex) as (k & _ & [Kt|Kt] & ->); [left|right]; congruence. }
  assert (D1 : drawn g1 ps) by exact D.
  assert (W' : well_drawn ps es1).
  { destruct (remove_edge_planar g g1 ps id r1 D W E) as (ps' & D' & Wd & _).
    assert (ps' = ps) by (apply (drawn_fun _ _ _ D' D1)). subst ps'. exact Wd. }
  assert (GP : general_position ps es1 (src e) (dst e)).
  { split.
    - intros k Hk _ _. exact (W3 k e Hk Hin).
    - intros i f x Hf Ox Sx N1 N2. exfalso. destruct (Meet f x (nth_error_In _ _ Hf) Ox Sx); congruence. }
  assert (NA : ~ adjacent g1 (src e) (dst e)).
  { intros (f & Hf & J). set (m := along (pt ps (src e)) (pt ps (dst e)) (1 / 2)).
    assert (Em : edge_on ps e m) by (exists (1 / 2); split; [lra|reflexivity]).
    assert (Fm : edge_on ps f m).
    { exists (1 / 2). split; [lra|]. unfold joins in J. unfold m, along. destruct J as [[-> ->]|[-> ->]]; [reflexivity|]. f_equal; field. }
    assert (Z : pt ps (src e) = pt ps (dst e)).
    { destruct (pt ps (src e)) as [a b] eqn:E1, (pt ps (dst e)) as [c d] eqn:E2. unfold m, along in *; cbn [vx vy] in *.
      destruct (Meet f _ Hf Fm Em) as [M|M]; injection M; intros; f_equal; lra. }
    pose proof (W2 _ _ Hs Hd Nsd) as Dd'. rewrite Z in Dd'. replace (dist (pt ps (dst e)) (pt ps (dst e))) with 0 in Dd'; [pose proof eps32_pos; lra|].
    unfold dist. rewrite !Rminus_diag_eq by reflexivity. rewrite Rmult_0_l, Rplus_0_l. now rewrite sqrt_0. }
  assert (V1 : valid g1) by (intros f Hf; cbn [nodes g1]; rewrite (drawn_length _ _ D); now apply (proj1 W')).
  destruct (add_edge_total dT g1 (src e) (dst e) u V1) as [[g2 r] H]. rewrite H.
  destruct (add_edge_full dT g1 g2 ps (src e) (dst e) u r D1 W' GP Nsd NA Hs Hd H) as (qs & D2 & W2' & C & N & _).
  assert (Q : qs = []).
  { destruct qs as [|q qs]; [reflexivity|exfalso]. assert (Iq : In q (ps ++ q :: qs)) by (apply in_app_iff; right; now left).
    assert (Ip : In q ps).
    { apply N in Iq. destruct Iq as [Iq|(Sq & f & Hf & Of)]; [exact Iq|]. destruct (Meet f q Hf Of Sq) as [-> | ->]; apply nth_In; assumption. }
    destruct (well_plane _ _ _ W2') as (ND & _). apply NoDup_remove_2 in ND. apply ND, in_app_iff. now left. }
  subst qs. rewrite app_nil_r in *.
  destruct (drawing_unique _ _ ps ps (edges g) (edges g2) (well_plane _ _ _ W) (well_plane _ _ _ W2') (fun x => iff_refl _)) as (_ & _ & Le & _).
  { intros x. rewrite C. split.
    - intros (f & Hf & Of). destruct (In_nth_error _ _ Hf) as (j & Hj). destruct (Nat.eq_dec j id) as [->|Nj].
      + right. rewrite He in Hj. injection Hj as <-. exact Of.
      + left. exists f. split; [|exact Of]. cbn [edges g1]. apply (Permutation_in _ (Permutation_sym P)).
        clear -Nj Hj. unfold without. apply in_app_iff. destruct (lt_dec j id) as [Li|Li].
        * left. apply (nth_error_In _ j). rewrite <- (firstn_skipn id (edges g)) in Hj. rewrite nth_error_app1 in Hj; [exact Hj|].
          rewrite firstn_length. apply Nat.min_glb_lt; [exact Li|]. apply nth_error_Some. rewrite firstn_skipn in Hj. congruence.
        * right. assert (Hl : (j < length (edges g))%nat) by (apply nth_error_Some; congruence). apply (nth_error_In _ (j - S id)). rewrite <- (firstn_skipn (S id) (edges g)) in Hj.
          rewrite nth_error_app2, firstn_length, Nat.min_l in Hj by (rewrite ?firstn_length; lia). exact Hj.
    - intros [(f & Hf & Of)|Of].
      + exists f. split; [|exact Of]. apply (without_incl (edges g) id). now apply (Permutation_in _ P).
      + exists e. split; [exact Hin|exact Of]. }
  assert (L1 : length es1 = (length (edges g) - 1)%nat).
  { rewrite (Permutation_length P). unfold without. rewrite app_length, firstn_length, skipn_length. lia. }
  destruct (plain_edge dT g1 g2 (src e) (dst e) u r H NA) as (-> & ->).
  - cbn [nodes g1]. rewrite (drawn_length _ _ D). exact Hs.
  - cbn [nodes g1]. rewrite (drawn_length _ _ D). exact Hd.
  - rewrite (drawn_length _ _ D2). cbn [nodes g1]. now rewrite (drawn_length _ _ D).
  - cbn [edges g1]. lia.
  - cbn [edges nodes g1]. rewrite L1. reflexivity.
Qed.
End Redraw.

(** ** Which neighbours of a removed node are left without an edge *)
Section Strays.
Context {O : Ops} {T U : Type}.
Local Notation graph := (PlanarGraph O T U).
Lemma degree_zero : forall (es : list (Edge U)) i, degree_in es i = 0%nat <-> forall e, In e es -> ~ touches i e.
Proof.
  intros es i. split.
  - intros Z e Hin Ht. assert (0 < degree_in es i)%nat by (apply degree_pos; eauto). lia.
  - intros H. destruct (degree_in es i) as [|n] eqn:Z; [reflexivity|exfalso]. assert (P : (0 < degree_in es i)%nat) by lia.
    apply degree_pos in P. destruct P as (e & Hin & Ht). exact (H e Hin Ht).
Qed.
Lemma stray_nodes : forall (g g' : graph) id r, valid g -> (id < List.length (nodes g))%nat -> ~ lonely_loop g id -> remove_node g id = Ok (g', r) ->
  forall k i, nth_error (keep_of g id) k = Some i ->
  (degree g' k = 0%nat <-> forall e, In e (edges g) -> touches i e -> touches id e).
Proof.
  intros g g' id r V Hid NL H k i Hk. pose proof (remove_node_restricts g g' id r V Hid NL H) as R.
  unfold degree. split.
  - intros Z e Hin Ht. destruct (touchesb id e) eqn:E; [now apply touchesb_iff|exfalso].
    assert (0 < degree g' k)%nat; [|unfold degree in *; lia]. apply (restricts_touch _ _ _ _ _ R k i e Hk); [|exact Ht].
    apply filter_In. split; [exact Hin|]. now rewrite E.
  - intros A. apply degree_zero. intros e' Hin' Ht'. destruct R as (Inc & _ & _ & F).
    assert (X : exists e, In e (filter (fun e => negb (touchesb id e)) (edges g)) /\ same_edge_via (keep_of g id) e' e).
    { clear -F Hin'. induction F as [|a b l l' Hab F IH]; [easy|]. destruct Hin' as [->|Hin'].
      - exists b. split; [now left|exact Hab].
      - destruct (IH Hin') as (e & ? & ?). exists e. split; [now right|assumption]. }
    destruct X as (e & Hin & S1 & S2 & _). apply filter_In in Hin. destruct Hin as [Hin Tb]. apply negb_true_iff, touchesb_false in Tb.
    apply Tb, (A e Hin). unfold touches in *. destruct Ht' as [<-|<-]; [left|right]; congruence.
Qed.
End Strays.
