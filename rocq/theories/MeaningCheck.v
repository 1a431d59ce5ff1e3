(** * The words a given f32 history says (used by the examples only). *)
From Coq Require Import ZArith Reals List Bool Lia Lra Arith.
From Flocq Require Import Core.Core IEEE754.BinarySingleNaN.
From Verif Require Import Scalar Utils Polygon Graph GraphSpec PlaneSpec F32 Laws UtilsReal UtilsF32 PolyF32 PolyNewF32
  PlanarSpec GridSpec GridUtils GraphAdd GraphHistory GraphPlanar GridGraph GridCheck GridThroughCheck MeaningSpec.
Import ListNotations.

Section Check.
Context {lm : Libm} {T U : Type} (dT : T) (e : Z) (He : (-149 <= e <= 103)%Z).
Local Notation graph := (PlanarGraph (FO lm) T U).

Inductive zword := ZPut (k : Z * Z) | ZJoin (a b : Z * Z) | ZErase (a b : Z * Z) | ZDrop (a : Z * Z) | ZNothing.
Definition real_word (z : zword) : word :=
  match z with
  | ZPut k => Put (at_unit e k)
  | ZJoin a b => Join (at_unit e a) (at_unit e b)
  | ZErase a b => Erase (at_unit e a) (at_unit e b)
  | ZDrop a => Drop (at_unit e a)
  | ZNothing => Nothing
  end.
Definition zword_of (g : graph) (ks : list (Z * Z)) (o : @op (FO lm) T U) : option zword :=
  match o with
  | OAddNode p _ => match place_of e p with Some k => Some (ZPut k) | None => None end
  | OAddEdge s d _ => Some (if (s <? length ks)%nat && (d <? length ks)%nat then ZJoin (kat ks s) (kat ks d) else ZNothing)
  | ORemoveEdge i => Some (match nth_error (edges g) i with Some f => ZErase (kat ks (src f)) (kat ks (dst f)) | None => ZNothing end)
  | ORemoveNode i => Some (if (i <? length ks)%nat then ZDrop (kat ks i) else ZNothing)
  end.
Fixpoint zwords (g : graph) (os : list (@op (FO lm) T U)) : option (list zword) :=
  match os with
  | [] => Some []
  | o :: os' =>
      match all_places e (nodes g), step dT g o with
      | Some ks, Ok g1 => match zword_of g ks o, zwords g1 os' with Some z, Some l => Some (z :: l) | _, _ => None end
      | _, _ => None
      end
  end.
Lemma zword_of_ok : forall (g : graph) ks o z, map (at_unit e) ks = places g -> zword_of g ks o = Some z ->
  means value_f32 g (places g) o (real_word z).
Proof.
  intros g ks o z E H. assert (L : length ks = length (places g)) by (rewrite <- E; symmetry; apply map_length).
  destruct o as [p d|s d u|i|i]; cbn [zword_of] in H.
  - destruct (place_of e p) as [k|] eqn:K; [|discriminate]. injection H as <-. apply means_put. exact (proj2 (proj2 (place_of_ok e p k He K))).
  - injection H as <-. destruct ((s <? length ks)%nat && (d <? length ks)%nat) eqn:B; cbn [real_word].
    + apply andb_true_iff in B. rewrite !Nat.ltb_lt in B. rewrite <- !(place_kat e g ks E). apply means_join; lia.
    + apply andb_false_iff in B. rewrite !Nat.ltb_ge in B. apply means_join_missing. lia.
  - injection H as <-. destruct (i <? length ks)%nat eqn:B; cbn [real_word].
    + apply Nat.ltb_lt in B. rewrite <- (place_kat e g ks E). apply means_drop. lia.
    + apply Nat.ltb_ge in B. apply means_drop_missing. lia.
  - injection H as <-. match goal with |- context [match ?x with Some _ => _ | None => _ end] => destruct x as [f|] eqn:F end; cbn [real_word].
    + rewrite <- !(place_kat e g ks E). now apply means_erase.
    + now apply means_erase_missing.
Qed.
Lemma zwords_ok : forall os (g : graph) zl, zwords g os = Some zl ->
  exists g', run dT g os = Ok g' /\ tells dT at_places value_f32 g os (map real_word zl) g'.
Proof.
  induction os as [|o os IH]; intros g zl H; cbn [zwords] in H; [injection H as <-; exists g; split; [reflexivity|constructor]|].
  destruct (all_places e (nodes g)) as [ks|] eqn:K; [|discriminate]. destruct (step dT g o) as [g1|] eqn:R; [|discriminate].
  destruct (zword_of g ks o) as [z|] eqn:Z; [|discriminate]. destruct (zwords g1 os) as [l|] eqn:Zl; [|discriminate]. injection H as <-.
  destruct (IH g1 l Zl) as (g' & R' & Te). exists g'. split; [cbn [run]; rewrite R; exact R'|].
  exact (tells_cons dT _ _ _ (places g) _ _ _ _ _ _ eq_refl (zword_of_ok g ks o z (all_places_ok e He _ _ K) Z) R Te).
Qed.
End Check.
