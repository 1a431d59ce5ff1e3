(** * C38, C74-C77: simple polygons (geometry/polygon.rs).

    [simple], [winding], [inside], [tiling]: see SimpleSpec.v.  [RO] is exact real
    arithmetic, [FO lm] is f32. *)
From Coq Require Import List Arith Bool Lia Reals Lra ZArith Psatz.
From Flocq Require Import Core.Core IEEE754.BinarySingleNaN.
From Verif Require Import Scalar Utils Polygon ListSpec PlaneSpec PolySpec F32 Laws UtilsReal
  PolyArea PolyRegular PolyDiag PolyTri PolyConvex PolyF32 GraphDemo
  SimpleSpec Winding SimplePoly SimpleWinding SimpleChord SimpleJordan SimpleEar SimpleTri Properties_Polygon.
Import ListNotations.
Local Open Scope R_scope.
Local Notation cross := PlaneSpec.cross.

(** A polygon with a reflex vertex (1,0) and a straight one (2,-1), used below. *)
Definition arrow : list point := [P2 0 0; P2 2 (-1); P2 4 (-2); P2 1 0; P2 4 2].

Lemma arrow_simple : simple arrow.
Proof.
  split; [unfold arrow; simpl; lia|]. split.
  - unfold arrow. repeat constructor; simpl; intros H;
      repeat match goal with H : _ \/ _ |- _ => destruct H as [H|H] | H : False |- _ => destruct H
        | H : P2 _ _ = P2 _ _ |- _ => injection H; intros; lra end.
  - intros a b c d x H1 H2 (t & Ht & X1) (s & Hs & X2). unfold arrow in H1, H2. simpl in H1, H2.
    repeat match goal with H : _ \/ _ |- _ => destruct H as [H|H] | H : False |- _ => destruct H end;
      injection H1; intros <- <-; injection H2; intros <- <-; try (left; reflexivity); right;
      subst x; unfold along in *; cbn [vx vy] in *; injection X2; intros E2 E1;
      first [exfalso; lra | left; split; [apply pt_eq; cbn [vx vy]; lra|reflexivity] | right; split; [apply pt_eq; cbn [vx vy]; lra|reflexivity]].
Qed.

Lemma arrow_area : shoelace arrow = 4.
Proof. unfold shoelace, arrow; simpl. ring. Qed.

(** ** C38: triangulate returns for every simple polygon, within n rounds *)
Theorem C38_terminates :
  forall p : Polygon R, simple (vertices p) -> 0 <= shoelace (vertices p) ->
  exists ts, forall fuel, (length (vertices p) <= fuel)%nat -> triangulate (O := RO) fuel p = Some (Ok ts).
Proof. intros p S A. destruct (simple_triangulate p S A) as (ts & R & _). now exists ts. Qed.
Print Assumptions C38_terminates.

(** In particular for every polygon made by Polygon::new from a simple vertex list,
    whatever its direction. *)
Theorem C38_terminates_new :
  forall (vs : list point) p, simple vs -> polygon_new (O := RO) vs = Some p ->
  exists ts, forall fuel, (length vs <= fuel)%nat -> triangulate (O := RO) fuel p = Some (Ok ts).
Proof.
  intros vs p S E. destruct (polygon_new_spec vs p E) as (V & A & _).
  assert (S' : simple (vertices p) /\ length (vertices p) = length vs).
  { destruct V as [-> | ->]; [now split|]. split; [now apply simple_rev|apply rev_length]. }
  destruct S' as [S' L]. destruct (C38_terminates p S' A) as (ts & Run). exists ts. intros fuel Hf. apply Run.
  change (length (@vertices R p) <= fuel)%nat. change (length (@vertices R p) = length vs) in L. lia.
Qed.
Print Assumptions C38_terminates_new.

(** Strictly convex polygons are simple, so C38_terminates_convex is a special case. *)
Theorem C38_convex_is_simple :
  forall vs, strictly_convex vs -> (3 <= length vs)%nat -> simple vs.
Proof. exact convex_simple. Qed.
Print Assumptions C38_convex_is_simple.

Example C38_example : exists ts, triangulate (O := RO) 5 (MkPolygon arrow) = Some (Ok ts).
Proof.
  destruct (C38_terminates (MkPolygon arrow) arrow_simple) as (ts & R).
  - change (0 <= shoelace arrow). rewrite arrow_area. lra.
  - exists ts. apply R. cbn. lia.
Qed.

(** ** C74: a simple polygon has an inside, and Polygon::new puts it on the left *)
Theorem C74_orientation :
  forall (vs : list point) p, simple vs -> polygon_new (O := RO) vs = Some p ->
  simple (vertices p) /\ 0 < shoelace (vertices p) /\
  (forall c, off (vertices p) c -> winding (vertices p) c = 0%Z \/ winding (vertices p) c = 1%Z) /\
  (exists c, inside (vertices p) c).
Proof.
  intros vs p S E. destruct (polygon_new_spec vs p E) as (V & A & _).
  assert (S' : simple (vertices p)) by (destruct V as [-> | ->]; [exact S|now apply simple_rev]).
  pose proof (shoelace_pos _ S' A) as Q. split; [exact S'|]. split; [now apply pos_shoelace|]. split.
  - intros c O. now apply winding_01.
  - now apply inside_exists.
Qed.
Print Assumptions C74_orientation.

(** Seen from a vertex along a segment that stays off the boundary, a point is inside
    exactly if it lies in the interior angle at the vertex, which is what in_cone tests. *)
Theorem C74_interior_angle :
  forall (vs : list point) k c, let n := length vs in
  simple vs -> 0 <= shoelace vs -> (k < n)%nat -> c <> vtx vs k ->
  (forall l x, (l < n)%nat -> on_segment (vtx vs l) (vtx vs (nxt n l)) x -> on_segment (vtx vs k) c x -> x = vtx vs k) ->
  (inside vs c <-> interior_angle (vtx vs (prv n k)) (vtx vs k) (vtx vs (nxt n k)) c).
Proof.
  intros vs k c n S A Hk N F. pose proof (shoelace_pos _ S A) as Q.
  assert (O : only_at vs (vtx vs k) c).
  { intros a b x He Xe Xc. apply edge_index in He. destruct He as (l & Hl & -> & ->). now apply (F l x). }
  destruct (Q _ _ _ c (edge_prev vs k Hk) (edge_next vs k Hk) N O) as [W1 W0].
  rewrite <- cone_iff, cone_ccw. split.
  - intros (_ & W). destruct (Classical_Prop.classic (ccw (vtx vs k) (vtx vs (nxt n k)) c (vtx vs (prv n k)))) as [|NC]; [assumption|].
    rewrite (W0 NC) in W. discriminate.
  - intros K. split; [|exact (W1 K)]. intros a b He X. apply N. apply (O a b c He X). apply on_seg_r.
Qed.
Print Assumptions C74_interior_angle.

(** The sign of the area tells the direction of any simple polygon. *)
Theorem C74_area_sign :
  forall vs c, simple vs -> shoelace vs <> 0 /\
  (off vs c -> winding vs c = 0%Z \/ winding vs c = (if Rlt_dec 0 (shoelace vs) then 1 else -1)%Z).
Proof.
  intros vs c S. destruct (Rtotal_order (shoelace vs) 0) as [T|[T|T]].
  - split; [lra|]. intros O.
    assert (Q : pos (rev vs)) by (apply shoelace_pos; [now apply simple_rev|rewrite shoelace_rev; lra]).
    assert (O' : off (rev vs) c).
    { intros a b He X. rewrite in_edges_rev in He. apply (O b a He). now apply on_segment_rev. }
    destruct (winding_01 (rev vs) c (simple_rev _ S) Q O') as [W|W]; rewrite winding_rev in W;
      destruct (Rlt_dec 0 (shoelace vs)); try lra; [left|right]; lia.
  - exfalso. pose proof (pos_shoelace vs S (shoelace_pos vs S ltac:(lra))). lra.
  - split; [lra|]. intros O.
    destruct (winding_01 vs c S (shoelace_pos vs S ltac:(lra)) O) as [W|W]; rewrite W;
      destruct (Rlt_dec 0 (shoelace vs)); try lra; [left|right]; reflexivity.
Qed.
Print Assumptions C74_area_sign.

Example C74_example : simple arrow /\ polygon_new (O := RO) (rev arrow) = Some (MkPolygon arrow).
Proof.
  split; [exact arrow_simple|]. unfold polygon_new.
  replace (length (rev arrow) <? 3)%nat with false by reflexivity.
  assert (E : olt (o := RO) (area_poly2 (O := RO) (rev arrow)) c0 = true).
  { apply Rltb_true. rewrite area_poly2_shoelace, shoelace_rev, arrow_area. simpl. lra. }
  rewrite E. now rewrite rev_involutive.
Qed.

(** ** C75: on a simple polygon, diagonal(i,j) says exactly whether the open segment between
    the two vertices lies inside *)
Theorem C75_diagonal_exact :
  forall (vs : list point) i j, simple vs -> 0 <= shoelace vs -> (i < length vs)%nat -> (j < length vs)%nat ->
  exists b, diagonal (O := RO) vs i j = Ok b /\
    (b = true <-> i <> j /\ forall x, open_segment (vtx vs i) (vtx vs j) x -> inside vs x).
Proof.
  intros vs i j S A Hi Hj. exists (diag (O := RO) vs i j). split; [now apply diagonal_eq|].
  rewrite diag_internal by assumption.
  rewrite (internal_iff vs _ _ S (shoelace_pos _ S A) (vtx_in vs i Hi) (vtx_in vs j Hj)).
  pose proof S as (_ & N & _). split.
  - intros (Ne & H). split; [congruence|]. intros x (t & Ht & ->). apply H.
    + exists t. split; [lra|reflexivity].
    + apply SimpleGlue.along_neq; [congruence|lra].
    + intros E. apply Ne. assert (E1 := f_equal vx E). assert (E2 := f_equal vy E). unfold along in E1, E2; cbn [vx vy] in E1, E2.
      apply pt_eq; apply (Rmult_eq_reg_l (1 - t)); lra.
  - intros (Ne & H). split; [intros E; apply Ne; now apply (vtx_inj vs)|].
    intros x (t & Ht & ->) Na Nb. apply H. exists t. split; [|reflexivity].
    destruct (Req_dec t 0) as [->|]; [exfalso; apply Na, along0|].
    destruct (Req_dec t 1) as [->|]; [exfalso; apply Nb, along1|]. lra.
Qed.
Print Assumptions C75_diagonal_exact.

(** The same for the f32 code on the grid. *)
Theorem C75_diagonal_exact_f32 :
  forall lm e, (-74 <= e <= 51)%Z -> forall vs i j, Forall (grid e) vs ->
  simple (map toR vs) -> 0 <= shoelace (map toR vs) -> (i < length vs)%nat -> (j < length vs)%nat ->
  exists b, diagonal (O := FO lm) vs i j = Ok b /\
    (b = true <-> i <> j /\ forall x, open_segment (vtx (map toR vs) i) (vtx (map toR vs) j) x -> inside (map toR vs) x).
Proof.
  intros lm e He vs i j G S A Hi Hj. rewrite (C39_diagonal_exact lm e He vs i j G Hi Hj).
  apply C75_diagonal_exact; auto; now rewrite map_length.
Qed.
Print Assumptions C75_diagonal_exact_f32.

Example C75_example : diagonal (O := RO) arrow 0 3 = Ok true /\ diagonal (O := RO) arrow 2 4 = Ok false.
Proof.
  set (fa := [xy 0 0; xy 2 (-1); xy 4 (-2); xy 1 0; xy 4 2]).
  assert (G : Forall (grid 0) fa).
  { repeat constructor; apply xy_grid; lia. }
  assert (E : map toR fa = arrow) by (unfold fa, arrow; cbn [map]; rewrite !toR_xy by lia; reflexivity).
  rewrite <- E. split.
  - rewrite <- (C39_diagonal_exact lm0 0 ltac:(lia) fa 0 3 G) by (simpl; lia). vm_compute. reflexivity.
  - rewrite <- (C39_diagonal_exact lm0 0 ltac:(lia) fa 2 4 G) by (simpl; lia). vm_compute. reflexivity.
Qed.

(** ** C76: ears *)
(** Every simple polygon of more than 3 vertices has an ear away from any given edge, so
    at least two. *)
Theorem C76_ears :
  forall (vs : list point) k, let n := length vs in
  simple vs -> 0 <= shoelace vs -> (3 < n)%nat -> (k < n)%nat ->
  exists i, (i < n)%nat /\ i <> k /\ i <> nxt n k /\ diagonal (O := RO) vs (prv n i) (nxt n i) = Ok true.
Proof.
  intros vs k n S A L Hk. pose proof (shoelace_pos _ S A) as Q.
  destruct (ear_exists vs _ _ S Q L (edge_next vs k Hk)) as (p & Hp & N1 & N2 & Ep).
  destruct (in_vtx vs p Hp) as (i & Hi & ->). exists i. split; [exact Hi|].
  split; [intros ->; now apply N1|]. split; [intros ->; now apply N2|].
  rewrite diagonal_eq by (first [now apply prv_lt|now apply nxt_lt]). apply f_equal.
  change (ear (O := RO) vs i = true). now apply ear_is_ear.
Qed.
Print Assumptions C76_ears.

Theorem C76_two_ears :
  forall (vs : list point), let n := length vs in
  simple vs -> 0 <= shoelace vs -> (3 < n)%nat ->
  exists i j, (i < n)%nat /\ (j < n)%nat /\ i <> j /\
    diagonal (O := RO) vs (prv n i) (nxt n i) = Ok true /\ diagonal (O := RO) vs (prv n j) (nxt n j) = Ok true.
Proof.
  intros vs n S A L. destruct (C76_ears vs 0 S A L ltac:(lia)) as (i & Hi & _ & _ & Ei).
  destruct (C76_ears vs i S A L Hi) as (j & Hj & Nj & _ & Ej). exists i, j. auto.
Qed.
Print Assumptions C76_two_ears.

(** Cutting off an ear leaves a simple polygon with smaller area and fewer vertices, and
    does not change which of the vertices not next to the cut are ears: the flags the
    code keeps are right. *)
Theorem C76_clip :
  forall (vs : list point) v, let n := length vs in
  simple vs -> 0 <= shoelace vs -> (4 < n)%nat -> (v < n)%nat ->
  diagonal (O := RO) vs (prv n v) (nxt n v) = Ok true ->
  let vs' := firstn v vs ++ skipn (S v) vs in let m := (n - 1)%nat in
  simple vs' /\ 0 < shoelace vs' < shoelace vs /\
  (forall k k', (k < m)%nat -> k' = (if Nat.ltb k v then k else S k) -> k' <> prv n v -> k' <> nxt n v ->
     diagonal (O := RO) vs' (prv m k) (nxt m k) = diagonal (O := RO) vs (prv n k') (nxt n k')).
Proof.
  intros vs v n S A L Hv E vs' m. pose proof (shoelace_pos _ S A) as Q.
  assert (Ev : vs' = remove_at v vs) by (symmetry; now apply remove_at_firstn).
  assert (Ee : ear (O := RO) vs v = true).
  { rewrite diagonal_eq in E by (first [now apply prv_lt|now apply nxt_lt]). now injection E. }
  assert (L3 : (3 < length vs)%nat) by (fold n; lia).
  destruct (st_facts vs v S Q L3 Hv Ee) as (S' & Q' & T & _). rewrite Ev.
  assert (Lv : length (remove_at v vs) = m) by (now apply remove_at_length).
  split; [exact S'|]. split.
  - split; [now apply pos_shoelace|]. rewrite (shoelace_remove vs v ltac:(lia) Hv). unfold ar in T. fold n in T |- *. lra.
  - intros k k' Hk -> N1 N3.
    assert (Hk' : ((if Nat.ltb k v then k else Datatypes.S k) < n)%nat) by (now apply shift_range).
    rewrite !diagonal_eq; try (first [apply prv_lt|apply nxt_lt]; assumption).
    2,3: change (length (remove_at v vs)) with (length (remove_at v vs)) in *; first [rewrite Lv; now apply prv_lt|rewrite Lv; now apply nxt_lt].
    apply f_equal. pose proof (st_flags vs v S Q L3 Hv Ee ltac:(lia) k Hk) as F.
    rewrite <- Lv. fold n in F.
    assert (Np : prv n v <> v) by (rewrite prv_cases; destruct (Nat.eqb_spec v 0); lia).
    assert (Nx : nxt n v <> v) by (unfold nxt; destruct (Nat.eqb_spec (Datatypes.S v) n); lia).
    apply F.
    + intros X. apply N1. unfold shift in X. destruct (Nat.ltb_spec k v);
        match type of X with context [Nat.ltb ?a ?b] => destruct (Nat.ltb_spec a b) end; lia.
    + intros X. apply N3. unfold shift in X. destruct (Nat.ltb_spec k v);
        match type of X with context [Nat.ltb ?a ?b] => destruct (Nat.ltb_spec a b) end; lia.
Qed.
Print Assumptions C76_clip.

(** ** C77: the triangles tile the polygon *)
Theorem C77_tiling :
  forall p : Polygon R, simple (vertices p) -> 0 <= shoelace (vertices p) ->
  exists ts, (forall fuel, (length (vertices p) <= fuel)%nat -> triangulate (O := RO) fuel p = Some (Ok ts)) /\
    length ts = (length (vertices p) - 2)%nat /\
    (forall t, In t ts -> length (vertices t) = 3%nat /\ 0 < shoelace (vertices t) /\
        forall q, In q (vertices t) -> In q (vertices p)) /\
    total ts = polygon_area (O := RO) p /\
    tiling (vertices p) (map vertices ts).
Proof. exact simple_triangulate. Qed.
Print Assumptions C77_tiling.

(** The same for the f32 code on the grid. *)
Theorem C77_tiling_f32 :
  forall lm e, (-74 <= e <= 51)%Z -> forall p : Polygon f32, Forall (grid e) (vertices p) ->
  simple (map toR (vertices p)) -> 0 <= shoelace (map toR (vertices p)) ->
  exists ts, (forall fuel, (length (vertices p) <= fuel)%nat -> triangulate (O := FO lm) fuel p = Some (Ok ts)) /\
    length ts = (length (vertices p) - 2)%nat /\
    (forall t, In t ts -> length (vertices t) = 3%nat /\ 0 < shoelace (map toR (vertices t)) /\
        forall q, In q (vertices t) -> In q (vertices p)) /\
    total (map polyR ts) = polygon_area (O := RO) (polyR p) /\
    tiling (map toR (vertices p)) (map (fun t => map toR (vertices t)) ts).
Proof.
  intros lm e He p G C A.
  assert (L : length (map toR (vertices p)) = length (vertices p)) by apply map_length.
  pose proof C as (Hn & _).
  destruct (simple_triangulate (polyR p) C A) as (us & R & Lu & P & T & Ti).
  assert (X : exists ts, triangulate (O := FO lm) (length (vertices p)) p = Some (Ok ts) /\ us = map polyR ts).
  { pose proof (triangulate_exact lm e He (length (vertices p)) p G) as X.
    rewrite R in X by (cbn [polyR vertices]; lia).
    destruct (triangulate (O := FO lm) (length (vertices p)) p) as [[ts|]|]; cbn [option_map] in X; try discriminate.
    exists ts. split; [reflexivity|]. now injection X. }
  destruct X as (ts & E & ->). exists ts. split; [|split; [|split; [|split]]].
  - intros fuel Hf. exact (C64_result_stable (FO lm) _ fuel p _ Hf E).
  - rewrite map_length in Lu. cbn [polyR vertices] in Lu. rewrite L in Lu. exact Lu.
  - assert (Hn' : (3 <= length (vertices p))%nat) by (rewrite <- L; exact Hn).
    destruct (triangulate_ok (O := FO lm) _ p _ Hn' E) as (ts' & E' & _ & V). injection E' as <-.
    intros t Ht. destruct (V t Ht) as [V1 V2]. split; [exact V1|]. split; [|exact V2].
    destruct (P (polyR t)) as (_ & Pos & _); [now apply in_map|exact Pos].
  - exact T.
  - rewrite map_map in Ti. exact Ti.
Qed.
Print Assumptions C77_tiling_f32.

(** Hence C38 in f32 on the grid. *)
Theorem C38_terminates_f32 :
  forall lm e, (-74 <= e <= 51)%Z -> forall p : Polygon f32, Forall (grid e) (vertices p) ->
  simple (map toR (vertices p)) -> 0 <= shoelace (map toR (vertices p)) ->
  exists ts, forall fuel, (length (vertices p) <= fuel)%nat -> triangulate (O := FO lm) fuel p = Some (Ok ts).
Proof.
  intros lm e He p G S A. destruct (C77_tiling_f32 lm e He p G S A) as (ts & R & _). now exists ts.
Qed.
Print Assumptions C38_terminates_f32.

Example C77_example : exists ts, triangulate (O := RO) 5 (MkPolygon arrow) = Some (Ok ts) /\ length ts = 3%nat /\
  tiling arrow (map vertices ts) /\ total ts = 2.
Proof.
  destruct (C77_tiling (MkPolygon arrow) arrow_simple) as (ts & Run & L & _ & T & Ti).
  - change (0 <= shoelace arrow). rewrite arrow_area. lra.
  - exists ts. split; [apply Run; cbn; lia|]. split; [exact L|]. split; [exact Ti|].
    rewrite T, polygon_area_shoelace. cbn [vertices]. change (@eq R (Rabs (shoelace arrow) / 2) 2).
    rewrite arrow_area, Rabs_pos_eq by lra. lra.
Qed.
