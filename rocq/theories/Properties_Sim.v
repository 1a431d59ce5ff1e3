(** * Properties C125-C127: on drawings with room to spare the f32 program does what the exact
    program does: the same edges, reports and node numbers, with nodes close by.

    [exact_graph g] is the f32 graph [g] in the same places, with real numbers for
    coordinates; the exact program is the same program text run on it (XO: reals with the
    tolerances of the code).  [calm] (SimSpec.v) speaks of the drawings of the exact program
    only. *)
From Coq Require Import ZArith Reals Lia Lra List Bool Arith Psatz Permutation.
From Flocq Require Import Core.Core IEEE754.BinarySingleNaN.
From Verif Require Import Scalar Utils F32 Laws Graph GraphSpec PlaneSpec PlanarSpec GridSpec GeoSpec GeoRound SimSpec UtilsReal GraphAdd GraphAddProps GraphPlanar GridGraph
  MarginSpec MarginReal MarginSeg MarginGraph MarginAdd MarginHist Follow MarginSim Drift MarginDrift CalmCheck SimOrder Properties_Margin.
Import ListNotations.
Local Open Scope R_scope.

(** ** C125: one call of add_edge *)
Theorem C125_add_edge :
  forall lm (T U : Type) (dT : T) M K dl (g : PlanarGraph (FO lm) T U) s d u, fine M K dl ->
  (forall n, In n (nodes g) -> pbound M (position n)) -> spaced dl (places g) (edges g) -> planar_f32 g ->
  s <> d -> (s < length (nodes g))%nat -> (d < length (nodes g))%nat -> ~ adjacent g s d ->
  clear_way dl K (places g) (edges g) s d ->
  exists g' gx r, add_edge dT g s d u = Ok (g', r) /\ add_edge dT (exact_graph g) s d u = Ok (gx, r) /\
    edges g' = edges gx /\ Forall2 (node_near (slip M K)) (nodes g') (nodes gx).
Proof.
  intros lm T U dT M K dl g s d u Fn PB Sp Pl Nsd Ls Ld NA CW. exact (single_add_edge lm dT M K dl Fn g s d u PB Sp Pl Nsd NA Ls Ld CW).
Qed.
Print Assumptions C125_add_edge.
Example C125_example : forall lm,
  fine (bpow radix2 (-9)) 4 (bpow radix2 (-15)) /\ (forall n, In n (nodes (one_edge lm)) -> pbound (bpow radix2 (-9)) (position n)) /\
  spaced (bpow radix2 (-15)) (places (one_edge lm)) (edges (one_edge lm)) /\ planar_f32 (one_edge lm) /\
  (2 <> 3 /\ 2 < length (nodes (one_edge lm)) /\ 3 < length (nodes (one_edge lm)))%nat /\ ~ adjacent (one_edge lm) 2 3 /\
  clear_way (bpow radix2 (-15)) 4 (places (one_edge lm)) (edges (one_edge lm)) 2 3.
Proof. intros lm. destruct (C119_example lm) as (E1 & E2 & E3 & E4 & E5 & E6 & E7 & _). exact (conj E1 (conj E2 (conj E3 (conj E4 (conj E5 (conj E6 E7)))))). Qed.

(** ** C126: histories of calls *)
Theorem C126_histories :
  forall lm (T U : Type) (dT : T) M K dl H G depth (g : PlanarGraph (FO lm) T U) os, steady M K dl H G ->
  (forall n, In n (nodes g) -> pfin (position n)) -> planar_f32 g -> calm dT M K dl H G depth (exact_graph g) os ->
  match calls dT g os, calls dT (exact_graph g) (map exact_op os) with
  | Ok (g1, answers1), Ok (g2, answers2) =>
      answers1 = answers2 /\ edges g1 = edges g2 /\ Forall2 (drifted M K G depth) (nodes g1) (nodes g2)
  | Panic, Panic => True
  | _, _ => False
  end.
Proof.
  intros lm T U dT M K dl H G depth g os St Fin Pl C. exact (drift_histories lm dT M K dl H G depth St os g Fin Pl C).
Qed.
Print Assumptions C126_histories.
Theorem C126_planar :
  forall lm (T U : Type) (dT : T) M K dl H G depth (g g1 : PlanarGraph (FO lm) T U) g2 os l1 l2 ps, steady M K dl H G ->
  (forall n, In n (nodes g) -> pfin (position n)) -> planar_f32 g -> calm dT M K dl H G depth (exact_graph g) os ->
  calls dT g os = Ok (g1, l1) -> calls dT (exact_graph g) (map exact_op os) = Ok (g2, l2) ->
  drawn g2 ps -> (forall p, In p ps -> within (M - slip M H) p) -> spaced dl ps (edges g2) -> planar_f32 g1.
Proof.
  intros lm T U dT M K dl H G depth g g1 g2 os l1 l2 ps St Fin Pl C H1 H2 D Bx Sp. exact (proj1 (drift_planar lm dT M K dl H G depth St os g g1 g2 l1 l2 ps Fin Pl C H1 H2 D Bx Sp)).
Qed.
Print Assumptions C126_planar.

(** ** C127: the order in which segments are drawn *)
Theorem C127_order_f32 :
  forall lm (T U : Type) (dT : T) M K dl H G depth1 depth2 (g : PlanarGraph (FO lm) T U) l1 l2, steady M K dl H G ->
  (forall n, In n (nodes g) -> pfin (position n)) -> planar_f32 g ->
  Permutation (map fst l1) (map fst l2) -> ForallOrdPairs differ (map fst l1) ->
  (forall c, In c (map fst l1) -> fst c <> snd c /\ (fst c < length (nodes g))%nat /\ (snd c < length (nodes g))%nat /\ ~ adjacent g (fst c) (snd c)) ->
  calm (lm := lm) dT M K dl H G depth1 (exact_graph g) (adds l1) -> calm (lm := lm) dT M K dl H G depth2 (exact_graph g) (adds l2) ->
  exists g1 a1 g2 a2, calls dT g (adds l1) = Ok (g1, a1) /\ calls dT g (adds l2) = Ok (g2, a2) /\ alike (2 * drift M K G) g1 g2.
Proof.
  intros lm T U dT M K dl H G depth1 depth2 g l1 l2 St Fin Pl P Df Ok C1 C2. exact (order_f32 dT M K dl H G St depth1 depth2 g l1 l2 Fin Pl P Df Ok C1 C2).
Qed.
Print Assumptions C127_order_f32.

(** ** Example: two segments crossing at (53/55, -19/55), and a third one from there across
    another segment, at (22189/3923, -10787/3923), in units of 2^-15; then the first crossing
    is taken away.  Both crossings are not f32 points. *)
Section Example.
Variable lm : Libm.
Local Notation graph := (PlanarGraph (FO lm) nat nat).
Definition grid_pt (x y : Z) : Vec2 (FO lm) := @P2 (FO lm) (f32_of x (-15)) (f32_of y (-15)).
Definition grid_node (xy : Z * Z) : Node (FO lm) nat := MkNode (grid_pt (fst xy) (snd xy)) 0%nat DEFAULT_LABEL.
Definition ends : list (Z * Z) := [(-10, -4); (11, 3); (-1, 8); (3, -9); (5, -1); (8, -9); (12, -6)]%Z.
Definition start : graph := MkGraph (map grid_node ends) [MkEdge 0 1 7%nat DEFAULT_LABEL; MkEdge 4 5 8%nat DEFAULT_LABEL].
Definition crossing_hist : list (@op (FO lm) nat nat) := [OAddEdge 2 3 9%nat; OAddEdge 7 6 10%nat; ORemoveNode 7].

Definition den : Z := (11 * 61 * 85 * 3923)%Z.
Let v := bpow radix2 (-15).
Let w := v / IZR den.
Let M := 13 * v.
Let dl := IZR den * w.
Definition ends_z : list zpt := map (fun p => (fst p * den, snd p * den)%Z) ends.
Definition cross1 : zpt := (215612003, -77294869)%Z.
Definition cross2 : zpt := (1265549615, -615236545)%Z.
Definition cross3 : zpt := (465836635, -1140749555)%Z.
Definition cross4 : zpt := (1497797477, -1234564177)%Z.
Definition deep : list (zpt * nat) := [(cross1, 1%nat); (cross2, 2%nat); (cross3, 2%nat); (cross4, 1%nat)].
Let depth : point -> nat := depth_at w deep.

Lemma v_pos : 0 < v. Proof. apply bpow_gt_0. Qed.
Lemma den_v : IZR den * w = v. Proof. unfold w. field. now apply IZR_neq. Qed.
Lemma w_pos : 0 < w. Proof. unfold w. apply Rmult_lt_0_compat; [exact v_pos|]. apply Rinv_0_lt_compat, IZR_lt. reflexivity. Qed.
Lemma w_big : bpow radix2 (-100) <= w * w.
Proof.
  apply Rle_trans with (bpow radix2 (-44) * bpow radix2 (-44)); [rewrite <- bpow_plus; apply bpow_le; lia|].
  assert (L : bpow radix2 (-44) <= w) by (pose proof den_v as E; change den with 223748305%Z in E; unfold v in E; cbn in *; lra). apply Rmult_le_compat; [left; apply bpow_gt_0|left; apply bpow_gt_0|exact L|exact L].
Qed.
Lemma M_v : M = 13 * bpow radix2 (-15). Proof. reflexivity. Qed.
Lemma dl_v : dl = bpow radix2 (-15). Proof. exact den_v. Qed.
Lemma sim_steady : steady M 2 dl 23 2.
Proof. rewrite dl_v, M_v. unfold steady, drift, slip, u32. cbn. lra. Qed.
Lemma sim_fine : fine M 23 dl. Proof. exact (steady_fine _ _ _ _ _ sim_steady). Qed.
Lemma grid_real : forall x y, (-12 <= x <= 12)%Z -> (-12 <= y <= 12)%Z -> pfin (grid_pt x y) /\ real_point (grid_pt x y) = at_w w (x * den, y * den)%Z.
Proof.
  intros x y Hx Hy. destruct (f32_of_exact x (-15)) as [F1 E1]; [lia|lia|]. destruct (f32_of_exact y (-15)) as [F2 E2]; [lia|lia|].
  split; [split; assumption|]. unfold real_point, grid_pt, at_w. cbn [vx vy fst snd]. rewrite E1, E2, !mult_IZR, !Rmult_assoc, den_v. reflexivity.
Qed.
Lemma ends_small : forall p, In p ends -> (-12 <= fst p <= 12)%Z /\ (-12 <= snd p <= 12)%Z.
Proof. intros p H. unfold ends in H. cbn [In] in H. repeat (destruct H as [<-|H]; [cbn; lia|]). destruct H. Qed.
Lemma start_fin : forall n, In n (nodes start) -> pfin (position n).
Proof. intros n H. cbn [start nodes] in H. apply in_map_iff in H. destruct H as (p & <- & Hp). destruct (ends_small p Hp). now apply grid_real. Qed.
Lemma start_exact : exact_graph start = MkGraph (map (fun x => MkNode (xp x) 0%nat DEFAULT_LABEL) (map (at_w w) ends_z)) (edges start).
Proof.
  unfold exact_graph, start. cbn [nodes edges]. f_equal. unfold ends_z. rewrite !map_map. apply map_ext_in. intros p Hp. destruct (ends_small p Hp) as [H1 H2].
  unfold exact_node, grid_node. cbn [position ndata nlabel]. now rewrite (proj2 (grid_real _ _ H1 H2)).
Qed.
Lemma den_pos : (0 < den)%Z. Proof. reflexivity. Qed.
Lemma box_v : IZR (12 * den) * w <= M - slip M 23.
Proof. pose proof v_pos. rewrite mult_IZR, Rmult_assoc, den_v. unfold M, slip, u32. lra. Qed.
Lemma start_planar : planar_drawing (pt (map (at_w w) ends_z)) (length (map (at_w w) ends_z)) (edges start).
Proof.
  pose proof (at_spaced w w_pos den ends_z (edges start) ltac:(vm_compute; reflexivity)) as (V & A & C). pose proof (dl_pos w w_pos den den_pos) as Pd. split.
  - intros k e Hk He NT On. pose proof (C k e Hk He NT _ On) as Q. rewrite dist_self0 in Q. lra.
  - assert (Z : forall y, on_segment (pt (map (at_w w) ends_z) 0) (pt (map (at_w w) ends_z) 1) y -> on_segment (pt (map (at_w w) ends_z) 4) (pt (map (at_w w) ends_z) 5) y -> False).
    { intros y H1 H2. apply (beside_apart M 23 dl sim_fine (pt (map (at_w w) ends_z) 0) (pt (map (at_w w) ends_z) 1) (pt (map (at_w w) ends_z) 4) (pt (map (at_w w) ends_z) 5) y); [| |exact H2|exact H1].
      - intros E. assert (L0 : (0 < length (map (at_w w) ends_z))%nat) by (cbn; lia). assert (L1 : (1 < length (map (at_w w) ends_z))%nat) by (cbn; lia).
        pose proof (A 0%nat 1%nat L0 L1 ltac:(lia)) as Q. rewrite E, dist_self0 in Q. lra.
      - rewrite !at_pt. apply (at_beside w w_pos den). vm_compute. reflexivity. }
    intros i j ei ej x N Hi Hj O1 O2. destruct i as [|[|i]], j as [|[|j]]; try congruence; try (destruct j; discriminate); try (destruct i; discriminate).
    + injection Hi as <-. injection Hj as <-. destruct (Z x O1 O2).
    + injection Hi as <-. injection Hj as <-. destruct (Z x O2 O1).
Qed.
Lemma start_holds : holds w 0%nat (exact_graph start) ends_z (edges start).
Proof. rewrite start_exact. split; [reflexivity|]. split; [reflexivity|exact start_planar]. Qed.
Lemma start_plane : planar_f32 start.
Proof.
  apply planar_places. assert (E : places start = map (at_w w) ends_z) by (apply (drawn_fun (exact_graph start)); [apply exact_drawn|exact (holds_drawn w 0%nat _ _ _ start_holds)]).
  rewrite E. exact start_planar.
Qed.
Definition es1 : list (Edge nat) := z_split ends_z (edges start ++ [MkEdge 2 3 9%nat DEFAULT_LABEL]) [cross1].
Definition zs1 : list zpt := ends_z ++ [cross1].
Definition es2 : list (Edge nat) := z_split zs1 (es1 ++ [MkEdge 7 6 10%nat DEFAULT_LABEL]) [cross2].
Definition zs2 : list zpt := zs1 ++ [cross2].
Definition passes2 : list (option zpt) := map (fun e : Edge nat => if (src e =? 4)%nat then Some cross2 else None) es1.
Lemma sim_calm : calm 0%nat M 2 dl 23 2 depth (exact_graph start) crossing_hist.
Proof.
  unfold crossing_hist.
  apply (calm_edge w w_pos w_big den 2 (12 * den) den_pos M 23 2 sim_steady box_v deep 0%nat ends_z (edges start) 2 3 9%nat [Some cross1; None] ltac:(vm_compute; reflexivity) _ _ start_holds).
  intros g1 H1. change (z_somes [Some cross1; None]) with [cross1] in H1. fold zs1 es1 in H1.
  apply (calm_edge w w_pos w_big den 2 (12 * den) den_pos M 23 2 sim_steady box_v deep 0%nat zs1 es1 7 6 10%nat passes2 ltac:(vm_compute; reflexivity) _ _ H1).
  intros g2 H2. change (z_somes passes2) with [cross2] in H2. fold zs2 es2 in H2.
  cbn [calm]. split; [|intros; exact I]. exists (map (at_w w) zs2). split; [exact (holds_drawn w 0%nat _ _ _ H2)|].
  split; [apply (box_in w w_pos (12 * den) M 23 box_v); vm_compute; reflexivity|]. destruct H2 as (_ & E2 & _). rewrite E2. split; [|exact I]. apply (at_spaced w w_pos den). vm_compute. reflexivity.
Qed.
Example C126_example :
  steady M 2 dl 23 2 /\ (forall n, In n (nodes start) -> pfin (position n)) /\ planar_f32 start /\ calm 0%nat M 2 dl 23 2 depth (exact_graph start) crossing_hist /\
  depth (P2 (53 / 55 * v) (-19 / 55 * v)) = 1%nat /\ depth (P2 (22189 / 3923 * v) (-10787 / 3923 * v)) = 2%nat /\
  exists g l, calls 0%nat start crossing_hist = Ok (g, l).
Proof.
  split; [exact sim_steady|]. split; [exact start_fin|]. split; [exact start_plane|].
  split; [exact sim_calm|]. split; [|split].
  - change 1%nat with (depth_z deep cross1). rewrite <- (depth_same w w_pos). unfold depth. f_equal. unfold at_w, cross1, w. change den with 223748305%Z. cbn [fst snd]. apply (f_equal2 (@P2 R)); field.
  - change 2%nat with (depth_z deep cross2). rewrite <- (depth_same w w_pos). unfold depth. f_equal. unfold at_w, cross2, w. change den with 223748305%Z. cbn [fst snd]. apply (f_equal2 (@P2 R)); field.
  - assert (B : match calls 0%nat start crossing_hist with Ok _ => true | Panic => false end = true) by (vm_compute; reflexivity).
    destruct (calls 0%nat start crossing_hist) as [[g l]|]; [now exists g, l|discriminate].
Qed.

(** Without the last call the drawing at the end has room to spare as well. *)
Example C126_planar_example :
  calm 0%nat M 2 dl 23 2 depth (exact_graph start) (firstn 2 crossing_hist) /\
  exists g1 g2 l1 l2 ps, calls 0%nat start (firstn 2 crossing_hist) = Ok (g1, l1) /\ calls 0%nat (exact_graph start) (map exact_op (firstn 2 crossing_hist)) = Ok (g2, l2) /\
    drawn g2 ps /\ (forall p, In p ps -> within (M - slip M 23) p) /\ spaced dl ps (edges g2) /\ In (P2 (22189 / 3923 * v) (-10787 / 3923 * v)) ps /\ length (edges g2) = 8%nat.
Proof.
  split; [pose proof sim_calm as C; cbn [calm crossing_hist] in C; cbn [calm crossing_hist firstn]; split; [apply C|]; intros g' Hg; split; [apply (proj2 C g' Hg)|auto]|].
  assert (B : match calls 0%nat start (firstn 2 crossing_hist) with Ok _ => true | Panic => false end = true) by (vm_compute; reflexivity).
  destruct (calls 0%nat start (firstn 2 crossing_hist)) as [[g1 l1]|]; [|discriminate]. clear B. exists g1.
  pose proof start_holds as H0. destruct (add_edge_total 0%nat (exact_graph start) 2 3 9%nat) as ([ga ra] & Ha).
  { intros e He. rewrite (proj1 H0), (proj1 (proj2 H0)) in *. cbn [edges start In] in *. rewrite !map_length. destruct He as [<-|[<-|[]]]; cbn; lia. }
  pose proof (call_result w w_pos w_big den 2 (12 * den) den_pos M 23 2 sim_steady box_v deep 0%nat ends_z (edges start) 2 3 9%nat [Some cross1; None] ltac:(vm_compute; reflexivity) _ ga ra H0 Ha) as H1.
  change (z_somes [Some cross1; None]) with [cross1] in H1. fold zs1 es1 in H1.
  destruct (add_edge_total 0%nat ga 7 6 10%nat) as ([gb rb] & Hb).
  { intros e He. rewrite (proj1 H1), (proj1 (proj2 H1)) in *. rewrite !map_length. vm_compute in He. repeat (destruct He as [<-|He]; [vm_compute; lia|]). destruct He. }
  pose proof (call_result w w_pos w_big den 2 (12 * den) den_pos M 23 2 sim_steady box_v deep 0%nat zs1 es1 7 6 10%nat passes2 ltac:(vm_compute; reflexivity) _ gb rb H1 Hb) as H2.
  change (z_somes passes2) with [cross2] in H2. fold zs2 es2 in H2.
  exists gb, l1, [EdgeDone ra; EdgeDone rb], (map (at_w w) zs2). split; [reflexivity|]. split; [cbn [calls call firstn crossing_hist map exact_op]; rewrite Ha; cbn [bind]; rewrite Hb; reflexivity|].
  split; [exact (holds_drawn w 0%nat _ _ _ H2)|]. split; [apply (box_in w w_pos (12 * den) M 23 box_v); vm_compute; reflexivity|].
  rewrite (proj1 (proj2 H2)). split; [apply (at_spaced w w_pos den); vm_compute; reflexivity|]. split; [|vm_compute; reflexivity].
  apply in_map_iff. exists cross2. split; [|vm_compute; tauto]. unfold at_w, cross2, w. change den with 223748305%Z. cbn [fst snd]. apply (f_equal2 (@P2 R)); field.
Qed.

(** The segments from node 2 to 3 and from 0 to 6, which cross each other and one of the two
    edges each, in both orders. *)
Definition segs1 : list (nat * nat * nat) := [(2, 3, 9); (0, 6, 10)]%nat.
Definition segs2 : list (nat * nat * nat) := [(0, 6, 10); (2, 3, 9)]%nat.
Definition zs3 : list zpt := ends_z ++ [cross4].
Definition es3 : list (Edge nat) := z_split ends_z (edges start ++ [MkEdge 0 6 10%nat DEFAULT_LABEL]) [cross4].
Example C127_example :
  steady M 2 dl 23 2 /\ (forall n, In n (nodes start) -> pfin (position n)) /\ planar_f32 start /\
  Permutation (map fst segs1) (map fst segs2) /\ ForallOrdPairs differ (map fst segs1) /\
  (forall c, In c (map fst segs1) -> fst c <> snd c /\ (fst c < length (nodes start))%nat /\ (snd c < length (nodes start))%nat /\ ~ adjacent start (fst c) (snd c)) /\
  calm (lm := lm) 0%nat M 2 dl 23 2 depth (exact_graph start) (adds segs1) /\ calm (lm := lm) 0%nat M 2 dl 23 2 depth (exact_graph start) (adds segs2).
Proof.
  split; [exact sim_steady|]. split; [exact start_fin|]. split; [exact start_plane|]. split; [apply perm_swap|]. split.
  { constructor; [constructor; [|constructor]|constructor; [constructor|constructor]]. intros [[A _]|[A _]]; discriminate. }
  split.
  { intros c [<-|[<-|[]]]; (split; [cbn; discriminate|]); (split; [cbn; lia|]); (split; [cbn; lia|]); intros (e & [<-|[<-|[]]] & [[A B]|[A B]]); cbn in A, B; discriminate. }
  split.
  - apply (calm_edge w w_pos w_big den 2 (12 * den) den_pos M 23 2 sim_steady box_v deep 0%nat ends_z (edges start) 2 3 9%nat [Some cross1; None] ltac:(vm_compute; reflexivity) _ _ start_holds).
    intros g1 H1. change (z_somes [Some cross1; None]) with [cross1] in H1. fold zs1 es1 in H1.
    apply (calm_edge w w_pos w_big den 2 (12 * den) den_pos M 23 2 sim_steady box_v deep 0%nat zs1 es1 0 6 10%nat [None; Some cross4; None; None; Some cross3] ltac:(vm_compute; reflexivity) _ _ H1).
    intros; exact I.
  - apply (calm_edge w w_pos w_big den 2 (12 * den) den_pos M 23 2 sim_steady box_v deep 0%nat ends_z (edges start) 0 6 10%nat [None; Some cross4] ltac:(vm_compute; reflexivity) _ _ start_holds).
    intros g1 H1. change (z_somes [None; Some cross4]) with [cross4] in H1. fold zs3 es3 in H1.
    apply (calm_edge w w_pos w_big den 2 (12 * den) den_pos M 23 2 sim_steady box_v deep 0%nat zs3 es3 2 3 9%nat [Some cross1; None; Some cross3; None; None] ltac:(vm_compute; reflexivity) _ _ H1).
    intros; exact I.
Qed.
End Example.
