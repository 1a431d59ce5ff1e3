(** * Edges from a node to itself (definitions only). *)
From Coq Require Import List Arith Bool.
From Verif Require Import Scalar Utils Graph.
Import ListNotations.

(** The arithmetics the theorems are about: exact, and f32 with any sin, cos and acos. *)
Definition exact_or_f32 (O : Ops) : Prop := O = XO \/ exists lm, O = FO lm.
(** The nodes an add_edge call says it made. *)
Definition new_nodes (r : add_edge_result) : option (list nat) := match r with AddOk ns _ => Some ns | NoSuchVertex => None end.

Section Any.
Context {O : Ops} {T U : Type}.
Local Notation graph := (PlanarGraph O T U).
Definition is_loop (e : Edge U) : bool := Nat.eqb (src e) (dst e).
(** The same graph without its loops; the loops in slot order. *)
Definition strip (g : graph) : graph := MkGraph (nodes g) (filter (fun e => negb (is_loop e)) (edges g)).
Definition loops (g : graph) : list (Edge U) := filter is_loop (edges g).
(** Calls that add. *)
Definition adding (o : @op O T U) : Prop := match o with OAddNode _ _ | OAddEdge _ _ _ => True | _ => False end.
(** Calls that do not ask for a loop. *)
Definition plain (o : @op O T U) : bool := match o with OAddEdge s d _ => negb (Nat.eqb s d) | _ => true end.
End Any.
