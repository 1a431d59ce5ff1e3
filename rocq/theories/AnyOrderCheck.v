(** * The strokes a given f32 history asks for (used by the examples only). *)
From Coq Require Import ZArith Reals List Bool Lia Lra Arith.
From Flocq Require Import Core.Core IEEE754.BinarySingleNaN.
From Verif Require Import Scalar Utils Polygon Graph GraphSpec PlaneSpec F32 Laws UtilsReal UtilsF32 PolyF32 PolyNewF32
  PlanarSpec GridSpec GridUtils GraphAdd GraphPlanar GridGraph GridCheck ThroughSpec GridThroughSpec GridThroughCheck AnyOrderSpec.
Import ListNotations.

Section Check.
Context {lm : Libm} {T U : Type} (dT : T) (e : Z) (He : (-149 <= e <= 103)%Z).
Local Notation graph := (PlanarGraph (FO lm) T U).

Inductive zstroke := ZDot (k : Z * Z) | ZLine (a b : Z * Z).
Definition real_stroke (z : zstroke) : stroke :=
  match z with ZDot k => Dot (at_unit e k) | ZLine a b => Line (at_unit e a) (at_unit e b) end.
Fixpoint zstrokes (g : graph) (os : list (@op (FO lm) T U)) : option (list zstroke) :=
  match os with
  | [] => Some []
  | OAddNode p d :: os' =>
      match add_node g p d with
      | Ok (g1, (i, _)) =>
          match all_places e (nodes g1), zstrokes g1 os' with Some ks, Some l => Some (ZDot (kat ks i) :: l) | _, _ => None end
      | Panic => None
      end
  | OAddEdge s d u :: os' =>
      match add_edge dT g s d u with
      | Ok (g1, _) =>
          if has_edge_between_nodes g s d || negb ((s <? length (nodes g))%nat && (d <? length (nodes g))%nat) then zstrokes g1 os'
          else match all_places e (nodes g), zstrokes g1 os' with Some ks, Some l => Some (ZLine (kat ks s) (kat ks d) :: l) | _, _ => None end
      | Panic => None
      end
  | _ => None
  end.
Lemma zstrokes_ok : forall os (g : graph) zl, zstrokes g os = Some zl ->
  exists g', run dT g os = Ok g' /\ asks dT placed_f32 g os (map real_stroke zl) g'.
Proof.
  induction os as [|o os IH]; intros g zl H; [injection H as <-; exists g; split; [reflexivity|constructor]|].
  destruct o as [p d|s d u|i|i]; cbn [zstrokes] in H; [| |discriminate|discriminate].
  - destruct (add_node g p d) as [[g1 [i ces]]|] eqn:A; [|discriminate]. destruct (all_places e (nodes g1)) as [ks|] eqn:K; [|discriminate].
    destruct (zstrokes g1 os) as [l|] eqn:Z; [|discriminate]. injection H as <-. destruct (IH g1 l Z) as (g' & R & Q).
    exists g'. split; [cbn [run step]; rewrite A; exact R|]. cbn [map real_stroke].
    rewrite <- (place_kat e g1 ks (all_places_ok e He _ _ K)). exact (asks_node dT _ _ _ _ _ _ _ _ _ _ _ A eq_refl Q).
  - destruct (add_edge dT g s d u) as [[g1 r]|] eqn:A; [|discriminate].
    destruct (has_edge_between_nodes g s d || negb ((s <? length (nodes g))%nat && (d <? length (nodes g))%nat)) eqn:B.
    + destruct (IH g1 zl H) as (g' & R & Q). exists g'. split; [cbn [run step]; rewrite A; exact R|].
      apply (asks_none dT _ _ _ _ _ _ _ _ _ _) with (3 := Q) (2 := A). apply orb_true_iff in B. destruct B as [B|B].
      * left. now apply between_adjacent.
      * right. apply negb_true_iff, andb_false_iff in B. rewrite !Nat.ltb_ge in B. lia.
    + apply orb_false_iff in B. destruct B as [B1 B2]. apply negb_false_iff, andb_true_iff in B2. rewrite !Nat.ltb_lt in B2.
      destruct (all_places e (nodes g)) as [ks|] eqn:K; [|discriminate].
      destruct (zstrokes g1 os) as [l|] eqn:Z; [|discriminate]. injection H as <-. destruct (IH g1 l Z) as (g' & R & Q).
      exists g'. split; [cbn [run step]; rewrite A; exact R|]. cbn [map real_stroke].
      rewrite <- !(place_kat e g ks (all_places_ok e He _ _ K)).
      apply (asks_edge dT _ _ _ _ _ _ _ _ _ _ _) with (4 := A) (6 := Q); [|tauto|tauto|reflexivity].
      intros Ad. apply between_adjacent in Ad. congruence.
Qed.
Lemma dots_incl : forall l l' : list zstroke, (forall k, In (ZDot k) l -> In (ZDot k) l') ->
  forall x, dotted (map real_stroke l) x -> dotted (map real_stroke l') x.
Proof.
  unfold dotted. intros l l' H x I. apply in_map_iff in I. destruct I as ([k|a b] & E & I); [|discriminate].
  cbn [real_stroke] in E. rewrite <- E. exact (in_map real_stroke l' (ZDot k) (H k I)).
Qed.
End Check.
