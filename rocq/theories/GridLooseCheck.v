(** * Deciding for a given history that its edges run along no edge (used by the examples only). *)
From Coq Require Import ZArith Reals List Bool Lia.
From Verif Require Import Scalar Utils Graph GraphSpec PlaneSpec F32 PlanarSpec GridSpec GridCheck GridThroughSpec GridThroughCheck GridLooseSpec.
Import ListNotations.

Section Check.
Context {lm : Libm} {T U : Type} (dT : T) (e : Z) (He : (-149 <= e <= 103)%Z).
Local Notation graph := (PlanarGraph (FO lm) T U).
Definition lays_opb (g : graph) (o : @op (FO lm) T U) : bool :=
  match o with
  | OAddNode _ _ => true
  | OAddEdge s d _ => match all_places e (nodes g) with Some ks => straightb ks (edges g) s d | None => false end
  | _ => false
  end.
Fixpoint laysb (g : graph) (os : list (@op (FO lm) T U)) : bool :=
  match os with
  | [] => true
  | o :: os' => lays_opb g o && match step dT g o with Ok g' => laysb g' os' | Panic => true end
  end.
Lemma laysb_ok : forall os g, laysb g os = true -> lays dT g os.
Proof.
  induction os as [|o os IH]; intros g H; [exact Logic.I|]. cbn [laysb] in H. apply andb_true_iff in H. destruct H as [H1 H2].
  split.
  - destruct o as [p dd|s d uu|i|i]; cbn [lays_op lays_opb] in *; [exact Logic.I| |discriminate|discriminate].
    destruct (all_places e (nodes g)) as [ks|] eqn:E; [|discriminate]. right; right.
    exact (proj1 (straightb_ok e g ks s d (all_places_ok e He _ _ E) H1)).
  - intros g' Hg. rewrite Hg in H2. now apply IH.
Qed.
End Check.
