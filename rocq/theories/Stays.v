(** * When histories in exact arithmetic stay planar. *)
From Coq Require Import Reals Lia Lra List Bool Arith Permutation Classical.
From Verif Require Import Scalar Utils Polygon Laws Graph GraphSpec PlaneSpec PlanarSpec GraphAdd GraphAddProps GraphRemove GraphHistory
  UtilsReal F32 GraphPlanar Draw ThroughSpec Through Over GridThroughSpec GridThrough GridOver StaysSpec.
Import ListNotations.
Local Open Scope R_scope.

Section Exact.
Context {T U : Type} (dT : T).
Local Notation graph := (PlanarGraph XO T U).

Lemma planar_clear : forall (g g' : graph) ps s d u r, drawn g ps -> well_drawn ps (edges g) -> no_near_miss ps (edges g) s d -> s <> d ->
  ~ adjacent g s d -> (s < length ps)%nat -> (d < length ps)%nat -> add_edge dT g s d u = Ok (g', r) ->
  (planar_exact g' <-> (forall e, In e (edges g) -> ~ overlaps ps s d e) /\ forall k, passes ps s d k -> degree g k = 1%nat).
Proof.
  intros g g' ps s d u r D W NM Nsd NA Hs Hd H.
  destruct (add_edge_over dT g g' ps s d u r D W NM Nsd NA Hs Hd H) as (qs & D' & _ & _ & _ & _ & _ & _ & X6 & X7). split.
  - intros (ps' & D2 & PF). rewrite (drawn_fun _ _ _ D2 D') in PF.
    assert (NO : forall f, In f (edges g) -> ~ overlaps ps s d f).
    { intros f Hf Ov. pose proof W as (Va & Ap & _). destruct (Va f Hf) as (Nf & L1 & L2).
      destruct (free_point (ps ++ qs) (pt ps (src f)) (pt ps (dst f))) as (x & Ox & Nx).
      { intros Q. pose proof (Ap _ _ L1 L2 Nf) as F. rewrite Q, dist_self0 in F. pose proof eps32_pos. lra. }
      destruct (X6 x) as (a & b & l & Pm & O1 & O2); [exists f; split; [exact Hf|]; split; [exact Ov|exact Ox]|].
      destruct (perm_two _ _ _ _ _ Pm) as (i & j & Nij & Hi & Hj).
      destruct PF as (_ & PF). destruct (PF i j a b x Nij Hi Hj O1 O2) as (k & T1 & _ & Ek).
      apply Nx. rewrite Ek. apply nth_In. rewrite <- (drawn_length _ _ D').
      assert (Va' : valid g').
      { apply (step_valid dT g (OAddEdge s d u)); [eapply well_drawn_valid; eassumption|]. cbn [step]. rewrite H. reflexivity. }
      destruct (Va' a (nth_error_In _ _ Hi)) as [M1 M2]. destruct T1 as [<-|<-]; assumption. }
    split; [exact NO|]. assert (UA : unambiguous ps (edges g) s d) by (apply unambiguous_over; auto).
    destruct (add_edge_thru dT g g' ps s d u r D W UA Nsd NA Hs Hd H) as (qs2 & D3 & _ & _ & _ & _ & Q & _).
    pose proof (app_inv_head _ _ _ (drawn_fun _ _ _ D3 D')) as Eq. subst qs2.
    intros k Pk. destruct (Nat.eq_dec (degree g k) 1) as [E|N]; [exact E|exfalso]. apply (Q k Pk) in N. destruct N as (f & Hf & Nt & On).
    destruct PF as (PF & _). apply (PF k f); auto. destruct Pk as (Lk & _). rewrite app_length. lia.
  - intros C. apply X7 in C. exists (ps ++ qs). split; [exact D'|]. apply C.
Qed.

Lemma free_neat : forall (g : graph) ps o, drawn g ps -> well_drawn ps (edges g) -> distinct_op g o -> free_op g o -> neat_op g o.
Proof.
  intros g ps o D W Di Fr. destruct o as [p v|s d u|i|i]; cbn [distinct_op free_op neat_op] in *; auto.
  destruct Di as (N & Di). split; [exact N|]. destruct Fr as [?|[?|(ps1 & D1 & NO & De)]]; auto. destruct Di as [?|[?|(ps2 & D2 & NM)]]; auto.
  rewrite (drawn_fun _ _ _ D1 D) in NO, De. rewrite (drawn_fun _ _ _ D2 D) in NM. right. right. exists ps. split; [exact D|]. split; [|exact De].
  apply unambiguous_over. auto.
Qed.

Theorem stays_iff : forall os (g : graph) ps, drawn g ps -> well_drawn ps (edges g) -> distinct dT g os -> (stays_exact dT g os <-> frees dT g os).
Proof.
  induction os as [|o os IH]; intros g ps D W Di.
  - cbn [stays_exact frees]. split; [easy|]. intros _. split; [exists ps; split; [exact D|apply W]|exact Logic.I].
  - destruct Di as [D1 D2]. cbn [stays_exact frees].
    assert (Key : (forall g', step dT g o = Ok g' -> planar_exact g') -> free_op g o).
    { intros PF. destruct o as [p v|s d u|i|i]; try exact Logic.I. cbn [free_op distinct_op] in *.
      destruct (classic (adjacent g s d)) as [A|NA]; [now left|right].
      destruct (classic (s < length (nodes g) /\ d < length (nodes g))%nat) as [[Ls Ld]|N]; [right|now left].
      destruct D1 as (Nsd & [?|[?|(ps2 & E2 & NM)]]); [contradiction|tauto|]. rewrite (drawn_fun _ _ _ E2 D) in NM.
      destruct (add_edge_total dT g s d u) as [[g' r] Hr]; [exact (well_drawn_valid g ps D W)|].
      exists ps. split; [exact D|]. rewrite (drawn_length _ _ D) in Ls, Ld.
      apply (planar_clear g g' ps s d u r D W NM Nsd NA Ls Ld Hr). apply PF. cbn [step]. rewrite Hr. reflexivity. }
    split.
    + intros [_ N]. assert (C : free_op g o).
      { apply Key. intros g' H. specialize (N g' H). destruct os; apply N. }
      split; [exact C|]. intros g' H.
      destruct (neat_step dT g g' o ps D W (free_neat g ps o D W D1 C) H) as (ps' & D' & W'). apply (IH g' ps' D' W' (D2 g' H)). auto.
    + intros [C N]. split; [exists ps; split; [exact D|apply W]|]. intros g' H.
      destruct (neat_step dT g g' o ps D W (free_neat g ps o D W D1 C) H) as (ps' & D' & W'). apply (IH g' ps' D' W' (D2 g' H)). auto.
Qed.
End Exact.
