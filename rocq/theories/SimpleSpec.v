(** * Vocabulary for simple polygons, independent of the model of polygon.rs. *)
From Coq Require Import Reals List ZArith.
From Verif Require Import Scalar Utils PlaneSpec.
Import ListNotations.
Local Open Scope R_scope.

(** Consecutive pairs of a chain, and the edges of a closed polygon. *)
Fixpoint path (l : list point) : list (point * point) :=
  match l with
  | p :: ((q :: _) as l') => (p, q) :: path l'
  | _ => []
  end.
Definition edges_of (P : list point) : list (point * point) :=
  match P with [] => [] | a :: _ => path (P ++ [a]) end.

(** Twice the signed area of a triangle. *)
Definition ar (a b c : point) : R := cross a b a c.

(** How the edge a -> b crosses the ray going right from q: +1 upwards, -1 downwards. *)
Definition cr (a b q : point) : Z :=
  if Rle_dec (vy a) (vy q) then
    if Rle_dec (vy b) (vy q) then 0%Z else if Rlt_dec 0 (ar a b q) then 1%Z else 0%Z
  else
    if Rle_dec (vy b) (vy q) then if Rlt_dec (ar a b q) 0 then (-1)%Z else 0%Z else 0%Z.

Fixpoint wn (es : list (point * point)) (q : point) : Z :=
  match es with
  | [] => 0%Z
  | e :: es' => (cr (fst e) (snd e) q + wn es' q)%Z
  end.

(** The winding number of the polygon [P] around [q] (meant for q off the edges). *)
Definition winding (P : list point) (q : point) : Z := wn (edges_of P) q.

(** Different vertices, and two edges share a point only if it is the vertex at which one
    ends and the other starts. *)
Definition simple (P : list point) : Prop :=
  (3 <= length P)%nat /\ NoDup P /\
  forall a b c d x, In (a, b) (edges_of P) -> In (c, d) (edges_of P) ->
    on_segment a b x -> on_segment c d x ->
    a = c \/ (x = b /\ b = c) \/ (x = d /\ d = a).

(** ** Inside a polygon, inside a triangle *)
Definition off (P : list point) (c : point) : Prop := forall a b, In (a, b) (edges_of P) -> ~ on_segment a b c.
Definition inside (P : list point) (c : point) : Prop := off P c /\ winding P c = 1%Z.
Definition in_open (t : list point) (p : point) : Prop :=
  match t with [a; b; c] => 0 < ar a b p /\ 0 < ar b c p /\ 0 < ar c a p | _ => False end.
Definition in_closed (t : list point) (p : point) : Prop :=
  match t with [a; b; c] => 0 <= ar a b p /\ 0 <= ar b c p /\ 0 <= ar c a p | _ => False end.

(** Non-overlapping triangles that cover the inside and nothing else. *)
Definition tiling (P : list point) (ts : list (list point)) : Prop :=
  (forall t p, In t ts -> in_open t p -> inside P p) /\
  ForallOrdPairs (fun t t' => forall p, in_open t p -> in_open t' p -> False) ts /\
  (forall p, inside P p -> exists t, In t ts /\ in_closed t p).

