(** * Whole histories in f32 next to the exact ones. *)
From Coq Require Import ZArith Reals Lia Lra List Bool Arith.
From Flocq Require Import Core.Core IEEE754.BinarySingleNaN.
From Verif Require Import Scalar Utils F32 Laws Graph ListSpec GraphSpec PlaneSpec PlanarSpec GridSpec Format RoundSpec GeoSpec GeoRound SimSpec Closest
  GraphAdd GraphAddProps GeoOn UtilsReal GeoSeg GeoGraph GraphPlanar GraphReport GridGraph MarginSpec MarginReal MarginSeg MarginGraph MarginAdd Follow MarginSim Drift.
Import ListNotations.
Local Open Scope R_scope.

(** ** Removals look at the edges and the number of nodes only *)
Section Two.
Context {O1 O2 : Ops} {T U B : Type}.
Variable P : Node O1 T -> Node O2 T -> Prop.
Definition twin (g : PlanarGraph O1 T U) (g2 : PlanarGraph O2 T U) : Prop := edges g = edges g2 /\ Forall2 P (nodes g) (nodes g2).
Definition agree (x : res (PlanarGraph O1 T U * B)) (y : res (PlanarGraph O2 T U * B)) : Prop :=
  match x, y with Ok (g, r), Ok (g2, r2) => r = r2 /\ twin g g2 | Panic, Panic => True | _, _ => False end.
End Two.

Section TwoRemove.
Context {O1 O2 : Ops} {T U : Type}.
Variable P : Node O1 T -> Node O2 T -> Prop.
Local Notation graph1 := (PlanarGraph O1 T U).
Local Notation graph2 := (PlanarGraph O2 T U).

Lemma Forall2_nth : forall A B (Q : A -> B -> Prop) l m, Forall2 Q l m -> forall k, (nth_error l k = None /\ nth_error m k = None) \/ exists a b, nth_error l k = Some a /\ nth_error m k = Some b /\ Q a b.
Proof.
  intros A B Q l m H. induction H as [|a b l m Hab _ IH]; intros k; [destruct k; left; auto|]. destruct k as [|k]; [right; exists a, b; auto|exact (IH k)].
Qed.
Lemma Forall2_len : forall A B (Q : A -> B -> Prop) l m, Forall2 Q l m -> length l = length m.
Proof. intros A B Q l m H. induction H; cbn; congruence. Qed.
Lemma Forall2_unmarked : forall (l : list (Node O1 T)) (m : list (Node O2 T)) mk i, Forall2 P l m -> Forall2 P (filter_unmarked mk i l) (filter_unmarked mk i m).
Proof. intros l m mk i H. revert i. induction H as [|a b l m Hab _ IH]; intros i; cbn [filter_unmarked]; [constructor|]. destruct (mem i mk); [apply IH|constructor; [exact Hab|apply IH]]. Qed.
Lemma two_incident : forall (g : graph1) (g2 : graph2) id, twin P g g2 -> number_of_edges_incident_to g id = number_of_edges_incident_to g2 id.
Proof.
  intros g g2 id [E F]. unfold number_of_edges_incident_to, get_vertex. rewrite E.
  destruct (Forall2_nth _ _ _ _ _ F id) as [[-> ->]|(a & b & -> & -> & _)]; reflexivity.
Qed.
Lemma two_loop : forall (g : graph1) (g2 : graph2) id es i, twin P g g2 -> incident_loop g id i es = incident_loop g2 id i es.
Proof.
  intros g g2 id es i W. revert i. induction es as [|e es IH]; intros i; cbn [incident_loop]; [reflexivity|]. rewrite IH. rewrite (two_incident g g2 _ W). reflexivity.
Qed.
Lemma two_remove_node : forall (g : graph1) (g2 : graph2) id, twin P g g2 -> agree P (remove_node g id) (remove_node g2 id).
Proof.
  intros g g2 id W. pose proof W as [E F]. unfold remove_node, remove_edges_incident_to_node, node_count, edge_count.
  rewrite (two_loop g g2 id (edges g) 0 W), E, (Forall2_len _ _ _ _ _ F).
  destruct (Forall2_nth _ _ _ _ _ F id) as [[-> ->]|(a & b & -> & -> & _)]; [cbn; auto|].
  destruct (incident_loop g2 id 0 (edges g2)) as [sn me].
  destruct (remap_loop (id :: sn) (seq 0 (length (nodes g2)))) as [m|]; cbn [bind]; [|exact I].
  destruct (list_min (id :: sn)) as [mn|]; [|exact I]. destruct (list_min me) as [me'|]; [|exact I].
  split; [reflexivity|]. split; cbn [edges nodes]; [reflexivity|now apply Forall2_unmarked].
Qed.
Lemma two_remove_edge : forall (g : graph1) (g2 : graph2) id, twin P g g2 -> agree P (remove_edge g id) (remove_edge g2 id).
Proof.
  intros g g2 id W. pose proof W as [E F]. unfold remove_edge, edge_count. rewrite E.
  destruct (nth_error (edges g2) id) as [e|]; [|cbn; auto]. destruct (get_node_indices e) as [a b]. rewrite !(two_incident g g2 _ W).
  destruct (number_of_edges_incident_to g2 a) as [na|]; [|exact I]. destruct (na =? 1)%nat; [now apply two_remove_node|].
  destruct (number_of_edges_incident_to g2 b) as [nb|]; [|exact I]. destruct (nb =? 1)%nat; [now apply two_remove_node|].
  destruct (1 <? length (edges g2))%nat; [|cbn; auto]. destruct (rev (edges g2)) as [|last rest]; [exact I|].
  destruct (Polygon.set_nth id last (rev rest)) as [es|]; cbn [bind]; [|exact I]. split; [reflexivity|]. split; [reflexivity|exact F].
Qed.
End TwoRemove.

(** ** Segments that share an end *)
Lemma share_apart : forall U (X : list point) (es : list (Edge U)) dl s d, 0 < dl -> spaced dl X es -> s <> d -> (s < length X)%nat -> (d < length X)%nat ->
  ~ (exists e, In e es /\ joins s d e) ->
  (forall k, (k < length X)%nat -> k <> s -> k <> d -> off dl (pt X s) (pt X d) (pt X k)) ->
  forall e k, In e es -> touches k e -> k = s \/ k = d -> forall y, edge_on X e y -> on_segment (pt X s) (pt X d) y -> y = pt X k.
Proof.
  intros U X es dl s d Pd Sp Nsd Ls Ld NA Way e k He Tk Hk y H1 H2. pose proof Sp as (V & A & C). destruct (V e He) as (Ne & L1 & L2).
  destruct (touch_join k e Tk) as (a & Ja). apply (join_on X k a e y Ja) in H1.
  assert (La : (a < length X)%nat) by (destruct Ja as [(<- & <-)|(<- & <-)]; assumption).
  assert (Nka : k <> a) by (destruct Ja as [(<- & <-)|(<- & <-)]; congruence).
  assert (Ex : exists b, (b < length X)%nat /\ b <> k /\ (k = s /\ b = d \/ k = d /\ b = s)).
  { destruct Hk as [-> | ->]; [exists d|exists s]; auto. }
  destruct Ex as (b & Lb & Nbk & Hb).
  assert (Nab : a <> b).
  { intros <-. apply NA. exists e. split; [exact He|]. unfold joins in *. destruct Ja as [(J1 & J2)|(J1 & J2)], Hb as [(E1 & E2)|(E1 & E2)]; [left|right|right|left]; split; congruence. }
  assert (H2' : on_segment (pt X k) (pt X b) y) by (destruct Hb as [(E1 & E2)|(E1 & E2)]; rewrite E1, E2; [exact H2|now apply on_sym]).
  destruct (fork _ _ _ _ H1 H2') as [Q|[Q|Q]]; [exact Q| |]; exfalso.
  - assert (Q' : on_segment (pt X s) (pt X d) (pt X a)) by (destruct Hb as [(E1 & E2)|(E1 & E2)]; rewrite E1, E2 in Q; [exact Q|now apply on_sym]).
    assert (Nas : a <> s) by (destruct Hb as [(E1 & E2)|(E1 & E2)]; congruence). assert (Nad : a <> d) by (destruct Hb as [(E1 & E2)|(E1 & E2)]; congruence).
    pose proof (Way a La Nas Nad _ Q') as G. rewrite dist_self0 in G. lra.
  - assert (NT : ~ touches b e) by (destruct Ja as [(<- & <-)|(<- & <-)]; intros [E|E]; congruence).
    pose proof (C b e Lb He NT (pt X b)) as G. unfold edge_off, off in G.
    assert (G' : dl <= dist (pt X b) (pt X b)) by (apply G; now apply (join_on X k a e)). rewrite dist_self0 in G'. lra.
Qed.

Lemma coord_dist : forall p q : point, Rabs (vx p - vx q) <= dist p q /\ Rabs (vy p - vy q) <= dist p q.
Proof.
  intros p q. pose proof (dist_sq p q) as E. pose proof (dist_nonneg p q) as P.
  assert (Z : forall z, z * z <= dist p q * dist p q -> Rabs z <= dist p q).
  { intros z Hz. apply sq_le; [exact P|]. rewrite <- Rabs_mult, (Rabs_pos_eq (z * z)) by apply Rle_0_sqr. exact Hz. }
  rewrite E in Z. pose proof (Rle_0_sqr (vx p - vx q)) as Q1. pose proof (Rle_0_sqr (vy p - vy q)) as Q2. unfold Rsqr in *. split; apply Z; lra.
Qed.

Lemma near_bound : forall a b m h t : R, Rabs (a - b) <= t -> Rabs a <= m - h -> t <= h -> Rabs b <= m.
Proof. intros a b m h t H1 H2 H3. apply Rabs_le_inv in H1, H2. apply Rabs_le. lra. Qed.

Section Hist.
Context (lm : Libm) {T U : Type} (dT : T).
Local Notation F := (FO lm).
Local Notation graph := (PlanarGraph F T U).
Local Notation xgraph := (PlanarGraph XO T U).
Local Notation edge := (Edge U).
Local Notation rp := real_point.
Variables (M K dl H : R) (G : nat) (depth : point -> nat).
Hypothesis St : steady M K dl H G.
Local Notation h := (slip M H).
Let Fn : fine M H dl := steady_fine M K dl H G St.
Let Fn2 : fine M (5 / 4 * K) (dl / 2) := steady_fine2 M K dl H G St.
Local Notation ok := (drifted M K G depth).
Local Notation lev x := (drift M K (Nat.min (depth x) G)).

Lemma lev_G : forall x, lev x <= drift M K G.
Proof. intros x. apply (drift_mono M K dl H G St). lia. Qed.
Lemma lev_h : forall x, lev x <= h.
Proof. intros x. pose proof (lev_G x). pose proof (drift_slip M K dl H G St). pose proof (slip_pos M K dl H G St). lra. Qed.
Lemma lev_u : forall x, lev x <= u32.
Proof. intros x. pose proof (lev_h x). pose proof (slip_u M K dl H G St). lra. Qed.

Lemma track : forall (g : graph) (gx : xgraph) X k n, Forall2 ok (nodes g) (nodes gx) -> drawn gx X -> nth_error (nodes g) k = Some n ->
  (k < length X)%nat /\ pfin (position n) /\ dist (rp (position n)) (pt X k) <= lev (pt X k).
Proof.
  intros g gx X k n W D Hn. destruct (Forall2_nth _ _ _ _ _ W k) as [[Q _]|(a & b & Ha & Hb & x & Px & Fp & Dp & _)]; [congruence|].
  rewrite Hn in Ha. injection Ha as <-.
  assert (Hk : (k < length X)%nat) by (rewrite <- (drawn_length _ _ D); apply nth_error_Some; congruence).
  assert (E : x = pt X k). { pose proof (drawn_pos (nodes gx) X k D Hk) as Q. unfold pos_at in Q. rewrite Hb, Px in Q. unfold xp in Q. destruct x as [x1 x2], (pt X k) as [y1 y2]. cbn [vx vy] in Q. congruence. }
  rewrite E in Dp. auto.
Qed.

Section State.
Variables (g : graph) (gx : xgraph) (X : list point).
Hypothesis W : twin ok g gx.
Hypothesis D : drawn gx X.
Hypothesis Bx : forall p, In p X -> within (M - h) p.
Hypothesis Sp : spaced dl X (edges gx).
Hypothesis Pl : planar_drawing (pt X) (length X) (edges gx).
Local Notation es := (edges gx).

Lemma box_M : boxed M X.
Proof.
  intros p Hp. destruct (Bx p Hp) as [B1 B2]. destruct (margins M H dl Fn) as (H0 & _). lra.
Qed.
Lemma len_g : length X = length (nodes g).
Proof. rewrite <- (drawn_length _ _ D). symmetry. exact (Forall2_len _ _ _ _ _ (proj2 W)). Qed.
Lemma st_rel : rel lm M H g X.
Proof.
  split; [exact len_g|]. split; [exact box_M|]. intros k n Hn. destruct (track g gx X k n (proj2 W) D Hn) as (_ & Fp & Dp). split; [exact Fp|]. pose proof (lev_h (pt X k)). lra.
Qed.
Lemma st_relX : relX M gx X. Proof. split; [exact D|exact box_M]. Qed.
Lemma st_pos : forall k, (k < length X)%nat -> pbound M (pos_at (nodes g) k) /\ dist (pt X k) (rp (pos_at (nodes g) k)) <= lev (pt X k).
Proof.
  intros k Hk. pose proof Hk as Hk'. rewrite len_g in Hk'. unfold pos_at. destruct (nth_error (nodes g) k) as [n|] eqn:En; [|apply nth_error_None in En; lia].
  destruct (track g gx X k n (proj2 W) D En) as (_ & Fp & Dp). rewrite dist_sym in Dp. split; [|exact Dp]. split; [exact Fp|].
  destruct (coord_dist (pt X k) (rp (position n))) as [C1 C2]. pose proof (lev_h (pt X k)) as Lh. destruct (Bx (pt X k) (nth_In X (P2 0 0) Hk)) as [B1 B2].
  split; [apply (near_bound _ _ M h _ C1)|apply (near_bound _ _ M h _ C2)]; try assumption; exact (Rle_trans _ _ _ Dp Lh).
Qed.
Lemma st_pairs : ForallOrdPairs (meet X []) es.
Proof. apply (pairs_nth _ (meet_sym X [])). intros i j e f N Hi Hj x H1 H2. left. exact (proj2 Pl i j e f x N Hi Hj H1 H2). Qed.
Lemma st_well : well_drawn X es.
Proof.
  pose proof Sp as (V & A & C). pose proof (fine_eps M H dl Fn) as E.
  split; [exact V|]. split; [intros i j Hi Hj N; pose proof (A i j Hi Hj N); lra|]. split; [exact (spaced_clear M H dl Fn X es box_M Sp)|exact Pl].
Qed.
Lemma st_valid : valid g /\ valid gx.
Proof.
  pose proof Sp as (V & _). split; intros e He.
  - rewrite (proj1 W) in He. destruct (V e He) as (_ & L1 & L2). rewrite len_g in L1, L2. auto.
  - rewrite (drawn_length _ _ D). destruct (V e He) as (_ & L1 & L2). auto.
Qed.

Section Edge.
Variables s d : nat.
Hypothesis Nsd : s <> d.
Hypothesis NA : ~ exists e, In e es /\ joins s d e.
Hypothesis Ls : (s < length X)%nat.
Hypothesis Ld : (d < length X)%nat.
Hypothesis CW : clear_way dl K X es s d.
Hypothesis Cl : climbs G depth X es s d.

Definition drawn_as (i : nat) (e : edge) (o : option point) : Prop :=
  shape dl X es s d i e o /\ answers (forF lm M H) g X s d e o /\
  forall x q, o = Some x -> calculate_line_segment_intersection (O := F) (pos_at (nodes g) (src e)) (pos_at (nodes g) (dst e)) (pos_at (nodes g) s) (pos_at (nodes g) d) = Some q ->
    dist (rp q) x <= lev x.

Lemma classify_drift : forall i e, nth_error es i = Some e -> exists o, drawn_as i e o.
Proof.
  intros i e Hi. pose proof (nth_error_In _ _ Hi) as He. pose proof Sp as (V & A & C). destruct (V e He) as (Ne & L1 & L2).
  pose proof (proj2 CW i e Hi) as Ps. unfold passes in Ps.
  destruct (st_pos _ L1) as [Pa Da]. destruct (st_pos _ L2) as [Pb Db]. destruct (st_pos _ Ls) as [Pc Dc]. destruct (st_pos _ Ld) as [Pdd Dd].
  pose proof (A _ _ L1 L2 Ne) as Hab. pose proof (A _ _ Ls Ld Nsd) as Hcd. destruct (margins M H dl Fn) as (_ & _ & _ & _ & Pd).
  assert (Nab : pt X (src e) <> pt X (dst e)) by (intros Q; rewrite Q, dist_self0 in Hab; lra).
  assert (Ncd : pt X s <> pt X d) by (intros Q; rewrite Q, dist_self0 in Hcd; lra).
  pose proof (boxed_pt M X _ box_M L1) as Ba. pose proof (boxed_pt M X _ box_M L2) as Bb. pose proof (boxed_pt M X _ box_M Ls) as Bc. pose proof (boxed_pt M X _ box_M Ld) as Bd.
  unfold drawn_as, answers.
  set (a := pos_at (nodes g) (src e)) in *. set (b := pos_at (nodes g) (dst e)) in *. set (c := pos_at (nodes g) s) in *. set (dd := pos_at (nodes g) d) in *.
  set (A0 := pt X (src e)) in *. set (B0 := pt X (dst e)) in *. set (C0 := pt X s) in *. set (D0 := pt X d) in *.
  change (calculate_line_segment_intersection (O := F) a b c dd) with (inter lm a b c dd).
  pose proof (lev_u A0) as Ua. pose proof (lev_u B0) as Ub. pose proof (lev_u C0) as Uc. pose proof (lev_u D0) as Ud.
  pose proof (drift_slip M K dl H G St) as DS. pose proof u_pos as Pu.
  pose proof St as (S1 & S2 & S3 & S4 & S5 & S6 & _). assert (uK : u32 * 1 <= u32 * K) by (apply Rmult_le_compat_l; lra).
  assert (Hab' : dl / 2 <= dist (rp a) (rp b)).
  { destruct (len_bend A0 B0 (rp a) (rp b) u32) as [_ Q]; [lra|lra|]. fold A0 B0 in Hab. lra. }
  assert (Hcd' : dl / 2 <= dist (rp c) (rp dd)).
  { destruct (len_bend C0 D0 (rp c) (rp dd) u32) as [_ Q]; [lra|lra|]. fold C0 D0 in Hcd. lra. }
  assert (Fin : forall q, inter lm a b c dd = Some q -> pfin q) by (intros q Q; exact (some_fin lm M _ _ Fn2 a b c dd Pa Pb q Q)).
  assert (Share : forall k, (k < length X)%nat -> touches k e -> k = s \/ k = d ->
    (forall q, inter lm a b c dd = Some q -> dist (rp q) (rp (pos_at (nodes g) k)) <= slip M (5 / 4 * K)) ->
    shape dl X es s d i e None /\ (forall q, inter lm a b c dd = Some q -> exists k, (k < length X)%nat /\ forF lm M H q (pt X k)) /\
    forall x q, None = Some x -> inter lm a b c dd = Some q -> dist (rp q) x <= lev x).
  { intros k Lk Tk Hk Dq. split; [|split; [|intros; discriminate]].
    - intros y H1 H2. exists k. split; [exact Tk|]. split; [exact Hk|]. exact (share_apart U X es dl s d Pd Sp Nsd Ls Ld NA (proj1 CW) e k He Tk Hk y H1 H2).
    - intros q Q. exists k. split; [exact Lk|]. split; [now apply Fin|]. split; [|exact (boxed_pt M X k box_M Lk)].
      destruct (st_pos k Lk) as [_ Dk]. pose proof (Dq q Q) as D1. pose proof (triangle (rp q) (rp (pos_at (nodes g) k)) (pt X k)) as T1.
      rewrite (dist_sym (rp (pos_at (nodes g) k)) (pt X k)) in T1. pose proof (lev_G (pt X k)). lra. }
  assert (Nothing : inter lm a b c dd = None -> (forall y, edge_on X e y -> on_segment C0 D0 y -> False) ->
    shape dl X es s d i e None /\ (forall q, inter lm a b c dd = Some q -> exists k, (k < length X)%nat /\ forF lm M H q (pt X k)) /\
    forall x q, None = Some x -> inter lm a b c dd = Some q -> dist (rp q) x <= lev x).
  { intros Q Z. split; [|split; [|intros; discriminate]]; [intros y H1 H2; destruct (Z y H1 H2)|]. intros q Hq. congruence. }
  destruct Ps as [Q|[Q|[Q|[[Q [W1 W2]]|[Q|[Q|[[W1 W2] (x & O1 & O2 & Far & Oth)]]]]]]].
  - exists None. apply (Share s); [exact Ls|now left|now left|]. intros q Hq. fold c. assert (Eac : a = c) by (unfold a, c; now rewrite Q). rewrite <- Eac.
    apply (shared_close lm M _ _ Fn2 a b c dd Pa Pb Pc Pdd q Hq). now left.
  - exists None. apply (Share d); [exact Ld|now left|now right|]. intros q Hq. fold dd. assert (Ead : a = dd) by (unfold a, dd; now rewrite Q). rewrite <- Ead.
    apply (shared_close lm M _ _ Fn2 a b c dd Pa Pb Pc Pdd q Hq). now right.
  - exists None. apply (Share s); [exact Ls|now right|now left|]. intros q Hq. fold c. assert (Ebc : b = c) by (unfold b, c; now rewrite Q). rewrite <- Ebc.
    now apply (shared_close lm M _ _ Fn2 a b c dd Pa Pb Pc Pdd q Hq).
  - exists None. apply (Share d); [exact Ld|now right|now right|]. intros q Hq. fold dd. assert (Bd' : b = dd) by (unfold b, dd; now rewrite Q).
    destruct (cond_bend M K dl H G St A0 B0 C0 D0 (rp a) (rp b) (rp c) (rp dd) u32) as [W1' W2']; try lra; try exact W1.
    apply (cross_close lm M _ _ Fn2 a b c dd Pa Pb Pc Pdd Hab' q (rp dd) 1 1 W1' W2'); [|now rewrite along_1|exact Hq]. rewrite along_1. now rewrite Bd'.
  - exists None. apply Nothing; [|intros y H1 H2; exact (beside_apart M H dl Fn _ _ _ _ y Ncd Q H1 H2)].
    apply (beside_none lm M _ _ Fn2 a b c dd Pa Pb Pc Pdd Hab' Hcd'). left.
    apply (beside_bend M K dl H G St A0 B0 C0 D0 _ _ _ _ u32); try lra; [| |exact Q]; apply box_dist; tauto.
  - exists None. apply Nothing; [|intros y H1 H2; exact (beside_apart M H dl Fn _ _ _ _ y Nab Q H2 H1)].
    apply (beside_none lm M _ _ Fn2 a b c dd Pa Pb Pc Pdd Hab' Hcd'). right.
    apply (beside_bend M K dl H G St C0 D0 A0 B0 _ _ _ _ u32); try lra; [| |exact Q]; apply box_dist; tauto.
  - exists (Some x).
    assert (Nx : forall k, (k < length X)%nat -> x <> pt X k) by (intros k Hk ->; specialize (Far k Hk); rewrite dist_self0 in Far; lra).
    destruct (Cl e x He O1 O2 Nx) as [LG Dp]. 
    assert (Ends : forall k, k = s \/ k = d \/ touches k e -> lev (pt X k) <= drift M K (Nat.pred (depth x))).
    { intros k Hk. apply (drift_mono M K dl H G St). specialize (Dp k Hk). lia. }
    assert (Px : depth x = S (Nat.pred (depth x))) by (specialize (Dp s (or_introl eq_refl)); lia).
    set (e0 := drift M K (Nat.pred (depth x))) in *.
    assert (E0 : e0 <= u32).
    { pose proof (lev_u x). apply Rle_trans with (lev x); [|lra]. apply (drift_mono M K dl H G St). lia. }
    assert (Ta : lev A0 <= e0) by (apply Ends; right; right; now left). assert (Tb : lev B0 <= e0) by (apply Ends; right; right; now right).
    assert (Tc : lev C0 <= e0) by (apply Ends; now left). assert (Td : lev D0 <= e0) by (apply Ends; right; now left).
    assert (Fa : dl <= dist x A0) by now apply Far. assert (Fb : dl <= dist x B0) by now apply Far. assert (Fc : dl <= dist x C0) by now apply Far. assert (Fd : dl <= dist x D0) by now apply Far.
    destruct (cond_bend M K dl H G St A0 B0 C0 D0 (rp a) (rp b) (rp c) (rp dd) e0) as [W1' W2']; try lra; try exact W1.
    destruct (meet_bend M K dl H G St A0 B0 C0 D0 (rp a) (rp b) (rp c) (rp dd) x e0) as (x' & X1 & X2 & X3); try lra; try exact W1; try exact O1; try exact O2.
    assert (Sm : (5 / 2 * K + 1) * e0 <= 7 / 2 * (u32 * K)).
    { pose proof (drift_pos M K dl H G St (Nat.pred (depth x))) as P0. fold e0 in P0. assert (e0 * K <= u32 * K) by (apply Rmult_le_compat_r; lra). lra. }
    assert (Fr : forall Z Z', dist Z Z' <= e0 -> dl <= dist x Z -> dl / 2 <= dist x' Z').
    { intros Z Z' H1 H2. pose proof (triangle x x' Z). pose proof (triangle x' Z' Z). rewrite (dist_sym Z' Z) in *. lra. }
    destruct (cross_some lm M _ _ Fn2 a b c dd Pa Pb Pc Pdd Hab' Hcd' W1' W2' x' X1 X2) as (q & Hq); [apply (Fr A0); lra|apply (Fr B0); lra|apply (Fr C0); lra|apply (Fr D0); lra|].
    assert (Near : dist (rp q) x <= lev x).
    { destruct X1 as (t & _ & Et). destruct X2 as (t' & _ & Et').
      pose proof (cross_close lm M _ _ Fn2 a b c dd Pa Pb Pc Pdd Hab' q x' t t' W1' W2' Et Et' Hq) as Cq.
      pose proof (triangle (rp q) x' x) as T1. rewrite (dist_sym x' x) in T1. rewrite Nat.min_l by exact LG. rewrite Px. cbn [drift]. fold e0. lra. }
    split; [|split].
    + split; [exact O1|]. split; [exact O2|]. split; [exact Far|]. split; [exact Oth|].
      intros y H1 H2. symmetry. eapply segment_intersection_unique; [exact W1| | | |]; apply on_segment_line; assumption.
    + exists q. split; [exact Hq|]. split; [now apply Fin|]. split; [pose proof (lev_h x); lra|]. exact (box_along M _ _ x Bc Bd O2).
    + intros x0 q0 Ex Eq. injection Ex as <-. rewrite Hq in Eq. injection Eq as <-. exact Near.
Qed.

Lemma drift_add_edge : forall u, agree ok (add_edge dT g s d u) (add_edge dT gx s d u) /\
  forall g1 r, add_edge dT gx s d u = Ok (g1, r) -> exists X', drawn g1 X' /\ planar_drawing (pt X') (length X') (edges g1).
Proof.
  intros u. destruct st_valid as [Vg Vx].
  destruct (add_edge_total dT g s d u Vg) as [[g' r] Hg]. destruct (add_edge_total dT gx s d u Vx) as [[g1 rx] Hx].
  destruct (choose_list _ _ drawn_as es classify_drift) as (os & Lo & Q).
  pose proof (proj1 W) as Ee. pose proof Sp as Sp'. pose proof st_pairs as Pl'. rewrite <- Ee in Sp', Pl', Lo, Q.
  assert (NA' : ~ adjacent g s d) by (unfold adjacent; rewrite Ee; exact NA).
  destruct (both_add_edge lm dT M H dl Fn g gx X s d os u g' r g1 rx st_rel st_relX (eq_sym Ee) Sp' Pl' Nsd NA' Ls Ld (proj1 CW) Lo)
    as (E1 & <- & (qs & N1 & Q1) & N2 & _ & RX & Mi); [| |exact Hg|exact Hx|].
  - intros i e o Hi Ho. pose proof (proj1 (Q i e o Hi Ho)) as Z. rewrite <- Ee in Z. exact Z.
  - intros i e o Hi Ho. exact (proj1 (proj2 (Q i e o Hi Ho))).
  - rewrite Hg, Hx. split.
    + split; [reflexivity|]. split; [exact E1|]. rewrite N1, N2. apply Forall2_app; [exact (proj2 W)|].
      assert (G0 : forall q x, made (forF lm M H) g s d os q x -> lev x = lev x -> ok (fresh_node dT q) (MkNode (xp x) dT DEFAULT_LABEL)).
      { intros q x ((Fq & _) & (i & e & Hi & Ho & Hq)) _. exists x. cbn [fresh_node position ndata nlabel]. split; [reflexivity|]. split; [exact Fq|].
        split; [|split; reflexivity]. exact (proj2 (proj2 (Q i e (Some x) Hi Ho)) x q eq_refl Hq). }
      clear - Q1 G0. induction Q1 as [|q x ql xl Hq _ IH]; [constructor|]. cbn [map]. constructor; [now apply G0|exact IH].
    + intros g2 r2 Q2. injection Q2 as <- _. exists (X ++ somes os). split; [exact (proj1 RX)|]. rewrite <- E1.
      exact (proj2 (proj2 (proj2 (inv_planar _ _ (minv_inv M H dl Fn _ _ _ (proj2 RX) Mi))))).
Qed.
End Edge.

Lemma close_index : forall q k n j x, forF lm M H q (pt X k) -> (k < length X)%nat -> nth_error (nodes g) j = Some n -> @olt F (distance (O := F) q (position n)) ceps = true ->
  x = pt X k -> j = k.
Proof.
  intros q k n j x Fq Hk Hj Hl _. destruct (Nat.eq_dec j k) as [E|N]; [exact E|]. exfalso. pose proof st_rel as (RL & RB & RC).
  assert (Lj : (j < length X)%nat) by (rewrite RL; apply nth_error_Some; congruence).
  destruct (RC j n Hj) as [Fj Dj].
  assert (R1 : rel lm M H (MkGraph [n] (@nil edge)) [pt X j]).
  { split; [reflexivity|]. split; [intros p [<-|[]]; exact (boxed_pt M X j RB Lj)|]. intros [|[|i]] m Hm; cbn in Hm; try discriminate. injection Hm as <-. cbn. auto. }
  apply (F_far lm M H dl Fn (MkGraph [n] (@nil edge)) [pt X j] q (pt X k) R1 Fq).
  - intros [|i] Hi; cbn [length] in Hi; [|lia]. unfold pt at 2. cbn [nth]. apply (proj1 (proj2 Sp)); auto.
  - exists 0%nat, n. auto.
Qed.
Lemma close_indexX : forall x k n j, dist x (pt X k) <= h -> (k < length X)%nat -> nth_error (nodes gx) j = Some n -> @olt XO (distance (O := XO) (xp x) (position n)) ceps = true -> j = k.
Proof.
  intros x k n j Dx Hk Hj Hl. destruct (X_at M gx X j n st_relX Hj) as [Lj Pj]. rewrite Pj, distance_xp in Hl. apply olt_eps in Hl.
  destruct (Nat.eq_dec j k) as [E|N]; [exact E|]. exfalso. pose proof (proj1 (proj2 Sp) j k Lj Hk N) as A. destruct (margins M H dl Fn) as (H0 & _ & H1 & _).
  pose proof (triangle (pt X j) x (pt X k)) as T1. rewrite (dist_sym (pt X j) x) in T1. pose proof eps32_pos. pose proof u_pos. assert (0 <= eps32 * u32) by (apply Rmult_le_pos; lra). lra.
Qed.

Lemma drift_add_node : forall p dat, calm_op M K dl H G depth X es (OAddNode p dat : @op F T U) ->
  agree ok (add_node g p dat) (add_node gx (xp (rp p)) dat) /\
  forall g1 r, add_node gx (xp (rp p)) dat = Ok (g1, r) -> exists X', drawn g1 X' /\ planar_drawing (pt X') (length X') (edges g1).
Proof.
  intros p dat [Fp Pos]. destruct st_valid as [Vg Vx].
  destruct (add_node_total g p dat Vg) as [[g' [i ces]] Hg]. destruct (add_node_total gx (xp (rp p)) dat Vx) as [[g1 [ix cx]] Hx]. rewrite Hg, Hx.
  destruct (margins M H dl Fn) as (H0 & H1 & _). pose proof eps32_pos as Pe. pose proof u_pos as Pu.
  destruct Pos as [(k & Hk & Dk)|(Wi & Lo)].
  - assert (Fq : forF lm M H p (pt X k)) by (split; [exact Fp|split; [exact Dk|exact (boxed_pt M X k box_M Hk)]]).
    pose proof (F_near lm M H dl Fn g X p k st_rel Hk Fq) as Ng.
    assert (Nx : near_node gx (xp (rp p))).
    { destruct (nth_error (nodes gx) k) as [m|] eqn:Em; [|apply nth_error_None in Em; rewrite (drawn_length _ _ D) in Em; lia].
      exists k, m. split; [exact Em|]. destruct (X_at M gx X k m st_relX Em) as [_ Pm]. rewrite Pm, distance_xp. apply olt_eps. assert (0 <= eps32 * u32) by (apply Rmult_le_pos; lra). lra. }
    apply add_node_ok in Hg. apply add_node_ok in Hx.
    destruct Hg as [(dg & Cg & Lg & -> & ->)|(dg & jg & Cg & Lg & _)]; [|destruct (closest_not_near (FO_laws lm) g p jg dg Cg) as [Z _]; apply Z in Ng; congruence].
    destruct Hx as [(dx & Cx & Lx & -> & ->)|(dx & jx & Cx & Lx & _)]; [|destruct (closest_not_near XO_laws gx _ jx dx Cx) as [Z _]; apply Z in Nx; congruence].
    destruct (closest_not_near (FO_laws lm) g p i dg Cg) as [_ Zg]. destruct (Zg Lg) as (n & Hn & ->).
    destruct (closest_not_near XO_laws gx _ ix dx Cx) as [_ Zx]. destruct (Zx Lx) as (m & Hm & ->).
    rewrite (close_index p k n i _ Fq Hk Hn Lg eq_refl), (close_indexX (rp p) k m ix Dk Hk Hm Lx).
    split; [split; [reflexivity|exact W]|]. intros g2 r2 Q. injection Q as <- _. exists X. split; [exact D|exact Pl].
  - destruct Wi as [W1 W2].
    assert (Fq : forF lm M H p (rp p)) by (split; [exact Fp|]; rewrite dist_self0; repeat split; lra).
    assert (FqX : forX M (xp (rp p)) (rp p)) by (split; [reflexivity|split; lra]).
    assert (Mi : minv dl X es [rp p]).
    { split; [exact Sp|]. split; [eapply pairs_impl; [|exact st_pairs]; intros e f Mf y Y1 Y2; destruct (Mf y Y1 Y2) as [?|[]]; now left|].
      split; [intros y [<-|[]]; exact Lo|]. constructor; constructor. }
    assert (Mg : minv dl X (edges g) [rp p]) by (rewrite (proj1 W); exact Mi).
    assert (RFl : forall (g : graph) X, rel lm M H g X -> length X = length (nodes g)) by (intros ? ? Q; apply Q).
    assert (RFb : forall (g : graph) X, rel lm M H g X -> boxed M X) by (intros ? ? Q; apply Q).
    destruct (follow_new (FO_laws lm) M H dl Fn (rel lm M H) (forF lm M H) RFl RFb (F_new lm M H) (F_far lm M H dl Fn) (F_on lm M H dl Fn)
      g g' X p (rp p) [] dat i ces st_rel Mg Fq Hg) as (on & On & E1 & -> & -> & N1 & _ & _ & _).
    destruct (follow_new XO_laws M H dl Fn (relX M) (forX M) (X_len M) (X_box M) (X_new M) (X_far M H dl Fn) (X_on M H dl Fn)
      gx g1 X (xp (rp p)) (rp p) [] dat ix cx st_relX Mi FqX Hx) as (onx & Onx & E2 & -> & -> & N2 & RX & Mi' & _).
    assert (S1 : splits X es [rp p] (edges g') (split_report on es ++ [])).
    { constructor; [rewrite (proj1 W) in On; exact On|]. rewrite <- (proj1 W), <- E1. constructor. }
    assert (S2 : splits X es [rp p] (edges g1) (split_report onx es ++ [])).
    { constructor; [exact Onx|]. rewrite <- E2. constructor. }
    destruct (splits_fun _ _ _ _ _ S1 _ _ S2) as [Es Er]. rewrite !app_nil_r in Er.
    split.
    + split; [now rewrite (proj1 W), Er|]. split; [exact Es|]. rewrite N1, N2. apply Forall2_app; [exact (proj2 W)|]. constructor; [|constructor].
      exists (rp p). cbn [position ndata nlabel]. split; [reflexivity|]. split; [exact Fp|]. rewrite dist_self0. split; [apply (drift_pos M K dl H G St)|auto].
    + intros g2 r2 Q. injection Q as <- _. exists (X ++ [rp p]). split; [exact (proj1 RX)|].
      exact (proj2 (proj2 (proj2 (inv_planar _ _ (minv_inv M H dl Fn _ _ _ (proj2 RX) Mi'))))).
Qed.

Lemma drift_call : forall o : @op F T U, calm_op M K dl H G depth X es o ->
  agree ok (call dT g o) (call dT gx (exact_op o)) /\
  forall g1 r, call dT gx (exact_op o) = Ok (g1, r) -> exists X', drawn g1 X' /\ planar_drawing (pt X') (length X') (edges g1).
Proof.
  intros [p dat|s d u|i|i] C; cbn [call exact_op].
  - destruct (drift_add_node p dat C) as [A Pl']. destruct (add_node g p dat) as [[g' [i ces]]|], (add_node gx (xp (rp p)) dat) as [[g1 [ix cx]]|]; cbn [agree] in A; try contradiction; cbn [bind].
    + destruct A as [Q A]. injection Q as -> ->. split; [split; [reflexivity|exact A]|]. intros g2 r Q. injection Q as <- _. exact (Pl' g1 _ eq_refl).
    + split; [exact I|]. intros; discriminate.
  - destruct C as [Nsd C].
    assert (Z : agree ok (add_edge dT g s d u) (add_edge dT gx s d u) /\
      forall g1 r, add_edge dT gx s d u = Ok (g1, r) -> exists X', drawn g1 X' /\ planar_drawing (pt X') (length X') (edges g1)).
    { destruct st_valid as [Vg Vx].
      destruct (add_edge_total dT g s d u Vg) as [[g' r] Hg]. destruct (add_edge_total dT gx s d u Vx) as [[g1 rx] Hx].
      assert (Ea : adjacent g s d <-> adjacent gx s d) by (unfold adjacent; rewrite (proj1 W); reflexivity).
      pose proof len_g as Lg. pose proof (drawn_length _ _ D) as Lx.
      pose proof Hg as Hg'. pose proof Hx as Hx'. apply add_edge_ok in Hg'. apply add_edge_ok in Hx'.
      destruct Hx' as [(Ax & -> & ->)|[(Ax & Rx & -> & ->)|(Ax & Lx1 & Lx2 & _)]].
      - destruct Hg' as [(Ag & -> & ->)|[(Ag & _)|(Ag & _)]]; try (exfalso; apply Ag, Ea, Ax). rewrite Hg, Hx.
        split; [split; [reflexivity|exact W]|]. intros g2 r2 Q. injection Q as <- _. exists X. split; [exact D|exact Pl].
      - destruct Hg' as [(Ag & _)|[(Ag & _ & -> & ->)|(Ag & L1 & L2 & _)]]; [exfalso; apply Ax, Ea, Ag| |exfalso; apply Rx; rewrite Lx, Lg; split; assumption].
        rewrite Hg, Hx. split; [split; [reflexivity|exact W]|]. intros g2 r2 Q. injection Q as <- _. exists X. split; [exact D|exact Pl].
      - rewrite Lx in Lx1, Lx2. destruct C as [Q|[Q|[CW Cl]]]; [contradiction|exfalso; apply Q; split; assumption|].
        exact (drift_add_edge s d Nsd Ax Lx1 Lx2 CW Cl u). }
    destruct Z as [A Pl']. destruct (add_edge dT g s d u) as [[g' r]|], (add_edge dT gx s d u) as [[g1 rx]|]; cbn [agree] in A; try contradiction; cbn [bind].
    + destruct A as [-> A]. split; [split; [reflexivity|exact A]|]. intros g2 r Q. injection Q as <- _. exact (Pl' g1 _ eq_refl).
    + split; [exact I|]. intros; discriminate.
  - pose proof (two_remove_node ok g gx i W) as A. destruct (remove_node g i) as [[g' [ns rs]]|], (remove_node gx i) as [[g1 [nx rx]]|] eqn:Hx; cbn [agree] in A; try contradiction; cbn [bind].
    + destruct A as [Q A]. injection Q as -> ->. split; [split; [reflexivity|exact A]|]. intros g2 r Q. injection Q as <- _.
      destruct (remove_node_planar _ _ _ _ _ D st_well Hx) as (ps' & D' & W' & _). exists ps'. split; [exact D'|apply W'].
    + split; [exact I|]. intros; discriminate.
  - pose proof (two_remove_edge ok g gx i W) as A. destruct (remove_edge g i) as [[g' [ns rs]]|], (remove_edge gx i) as [[g1 [nx rx]]|] eqn:Hx; cbn [agree] in A; try contradiction; cbn [bind].
    + destruct A as [Q A]. injection Q as -> ->. split; [split; [reflexivity|exact A]|]. intros g2 r Q. injection Q as <- _.
      destruct (remove_edge_planar _ _ _ _ _ D st_well Hx) as (ps' & D' & W' & _). exists ps'. split; [exact D'|apply W'].
    + split; [exact I|]. intros; discriminate.
Qed.
End State.

Lemma call_step : forall {O : Ops} (g : PlanarGraph O T U) o g' a, call dT g o = Ok (g', a) -> step dT g o = Ok g'.
Proof.
  intros O g [p dat|s d u|i|i] g' a Q; cbn [call step] in *; apply bind_ok in Q; destruct Q as ([g1 r] & -> & Q); cbn [bind]; try (destruct r as [r1 r2]); congruence.
Qed.

Theorem drift_calls_planar : forall os (g : graph) (gx : xgraph) X, twin ok g gx -> drawn gx X -> planar_drawing (pt X) (length X) (edges gx) ->
  calm dT M K dl H G depth gx os -> agree ok (calls dT g os) (calls dT gx (map exact_op os)) /\
  forall g1 l, calls dT gx (map exact_op os) = Ok (g1, l) -> exists X', drawn g1 X' /\ planar_drawing (pt X') (length X') (edges g1).
Proof.
  induction os as [|o os IH]; intros g gx X W D Pl C.
  { split; [split; [reflexivity|exact W]|]. intros g1 l Q. injection Q as <- _. exists X. split; assumption. }
  cbn [calm] in C. destruct C as ((X' & D' & Bx & Sp & Co) & Next). rewrite (drawn_fun gx X X' D D') in *. clear X D. 
  destruct (drift_call g gx X' W D' Bx Sp Pl o Co) as [A Pl']. cbn [map calls].
  destruct (call dT g o) as [[g1 a]|] eqn:Hg, (call dT gx (exact_op o)) as [[g2 b]|] eqn:Hx; cbn [agree] in A; try contradiction; cbn [bind]; [|split; [exact I|intros; discriminate]].
  destruct A as [<- W1]. destruct (Pl' g2 a eq_refl) as (X1 & D1 & P1).
  destruct (IH g1 g2 X1 W1 D1 P1 (Next g2 (call_step gx (exact_op o) g2 a Hx))) as [A Pn].
  destruct (calls dT g1 os) as [[g3 l]|], (calls dT g2 (map exact_op os)) as [[g4 l']|]; cbn [agree] in A; try contradiction; cbn [bind]; [|split; [exact I|intros; discriminate]].
  destruct A as [-> W2]. split; [split; [reflexivity|exact W2]|]. intros g5 l5 Q. injection Q as <- _. exact (Pn g4 l' eq_refl).
Qed.

(** From an f32 drawing and the exact graph in the same places. *)
Lemma start_twin : forall g : graph, (forall n, In n (nodes g) -> pfin (position n)) -> twin ok g (exact_graph g).
Proof.
  intros g Fin. split; [reflexivity|]. unfold exact_graph. cbn [nodes].
  induction (nodes g) as [|n l IH]; cbn [map]; constructor; [|apply IH; intros m Hm; apply Fin; now right].
  exists (rp (position n)). split; [reflexivity|]. split; [apply Fin; now left|]. rewrite dist_self0. split; [apply (drift_pos M K dl H G St)|split; reflexivity].
Qed.
Theorem drift_histories : forall os (g : graph), (forall n, In n (nodes g) -> pfin (position n)) -> planar_f32 g -> calm dT M K dl H G depth (exact_graph g) os ->
  agree ok (calls dT g os) (calls dT (exact_graph g) (map exact_op os)).
Proof.
  intros os g Fin Pl C. apply (drift_calls_planar os g (exact_graph g) (places g)); [now apply start_twin|apply exact_drawn|now apply planar_places|exact C].
Qed.
(** The f32 drawing at the end is planar, if the exact one has room to spare. *)
Theorem drift_planar : forall os (g g1 : graph) (g2 : xgraph) l l' X, (forall n, In n (nodes g) -> pfin (position n)) -> planar_f32 g -> calm dT M K dl H G depth (exact_graph g) os ->
  calls dT g os = Ok (g1, l) -> calls dT (exact_graph g) (map exact_op os) = Ok (g2, l') ->
  drawn g2 X -> (forall p, In p X -> within (M - h) p) -> spaced dl X (edges g2) ->
  planar_f32 g1 /\ spaced (dl - 2 * h) (places g1) (edges g1).
Proof.
  intros os g g1 g2 l l' X Fin Pl C H1 H2 D Bx Sp.
  destruct (drift_calls_planar os g (exact_graph g) (places g)) as [A Pn]; [now apply start_twin|apply exact_drawn|now apply planar_places|exact C|].
  rewrite H1, H2 in A. cbn [agree] in A. destruct A as [_ W]. destruct (Pn g2 l' H2) as (X' & D' & P'). rewrite (drawn_fun g2 X' X D' D) in *.
  apply (shadow_rel lm M H dl Fn g1 X); [exact (st_rel g1 g2 X W D Bx)|]. rewrite (proj1 W). split; [exact Sp|]. split; [|split; [intros y []|constructor]].
  exact (st_pairs g2 X P').
Qed.
End Hist.
