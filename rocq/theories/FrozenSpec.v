(** * Edges between nodes that are not a finite distance apart (definitions only). *)
From Coq Require Import List Arith Bool.
From Flocq Require Import Core.Core IEEE754.BinarySingleNaN.
From Verif Require Import Scalar Utils Graph.
Import ListNotations.

Section F32.
Context {lm : Libm} {T U : Type}.
Local Notation graph := (PlanarGraph (FO lm) T U).
(** The difference of the x or of the y coordinates is infinite or NaN: a coordinate is,
    or the difference overflows. *)
Definition apart (a b : Vec2 (FO lm)) : bool :=
  negb (is_finite (osub (vx b) (vx a) : f32) && is_finite (osub (vy b) (vy a) : f32)).
Definition apart_at (ns : list (Node (FO lm) T)) (s d : nat) : bool :=
  match nth_error ns s, nth_error ns d with Some a, Some b => apart (position a) (position b) | _, _ => false end.
Definition frozen (ns : list (Node (FO lm) T)) (e : Edge U) : bool := apart_at ns (src e) (dst e).
(** The same graph without those edges; those edges in slot order. *)
Definition thaw (g : graph) : graph := MkGraph (nodes g) (filter (fun e => negb (frozen (nodes g) e)) (edges g)).
Definition frost (g : graph) : list (Edge U) := filter (frozen (nodes g)) (edges g).
(** A history of calls from which the requests for such edges are left out. *)
Context (dT : T).
Fixpoint run_thaw (g : graph) (os : list (@op (FO lm) T U)) : res graph :=
  match os with
  | [] => Ok g
  | OAddEdge s d u :: os' =>
      if apart_at (nodes g) s d then run_thaw g os'
      else let! g' := step dT g (OAddEdge s d u) in run_thaw g' os'
  | o :: os' => let! g' := step dT g o in run_thaw g' os'
  end.
End F32.
