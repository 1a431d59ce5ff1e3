(** * f32 histories all of whose drawings are planar (definitions only). *)
From Coq Require Import Reals List.
From Verif Require Import Scalar F32 Utils Graph GraphSpec PlaneSpec PlanarSpec GridSpec ThroughSpec.
Import ListNotations.

Section Grid.
Context {lm : Libm} {T U : Type} (dT : T).
Local Notation graph := (PlanarGraph (FO lm) T U).
(** Every graph on the way is a planar drawing. *)
Fixpoint stays_planar (g : graph) (os : list (@op (FO lm) T U)) : Prop :=
  planar_f32 g /\
  match os with
  | [] => True
  | o :: os' => forall g', step dT g o = Ok g' -> stays_planar g' os'
  end.
(** Every requested edge exists already, has a missing end, or runs along no edge and
    passes only nodes with exactly one edge. *)
Definition clear_op (g : graph) (o : @op (FO lm) T U) : Prop :=
  match o with
  | OAddEdge s d _ => adjacent g s d \/ ~ (s < node_count g /\ d < node_count g)%nat \/
      ((forall e, In e (edges g) -> ~ overlaps (places g) s d e) /\
       (forall k, passes (places g) s d k -> degree g k = 1%nat))
  | _ => True
  end.
Fixpoint clears (g : graph) (os : list (@op (FO lm) T U)) : Prop :=
  match os with
  | [] => True
  | o :: os' => clear_op g o /\ forall g', step dT g o = Ok g' -> clears g' os'
  end.
End Grid.
