(** * Additions in f32 whose edges may pass through any nodes (definitions only). *)
From Coq Require Import Reals List.
From Verif Require Import Scalar F32 Utils Graph GraphSpec PlaneSpec PlanarSpec GridSpec.
Import ListNotations.

Section Grid.
Context {lm : Libm} {T U : Type} (dT : T).
Local Notation graph := (PlanarGraph (FO lm) T U).
(** The segment from node [s] to node [d] has at most one point in common with each edge. *)
Definition along_no_edge (g : graph) (s d : nat) : Prop :=
  let ps := places g in
  forall e x y, In e (edges g) -> edge_on ps e x -> edge_on ps e y ->
    on_segment (pt ps s) (pt ps d) x -> on_segment (pt ps s) (pt ps d) y -> x = y.
(** Additions only; every requested edge exists already, has a missing end, or runs along
    no edge. *)
Definition lays_op (g : graph) (o : @op (FO lm) T U) : Prop :=
  match o with
  | OAddNode _ _ => True
  | OAddEdge s d _ => adjacent g s d \/ ~ (s < node_count g /\ d < node_count g)%nat \/ along_no_edge g s d
  | _ => False
  end.
Fixpoint lays (g : graph) (os : list (@op (FO lm) T U)) : Prop :=
  match os with
  | [] => True
  | o :: os' => lays_op g o /\ forall g', step dT g o = Ok g' -> lays g' os'
  end.
End Grid.
