(** * The f32 program next to the exact one: histories of calls with all their answers, and
    histories whose exact drawing leaves room to spare (definitions only). *)
From Coq Require Import Reals List.
From Flocq Require Import Core.Core.
From Verif Require Import Scalar Utils Graph GraphSpec PlaneSpec PlanarSpec GridSpec GeoSpec MarginSpec.
Import ListNotations.
Local Open Scope R_scope.

(** ** Histories of calls, with what every call returns *)
Inductive answer := NodeAt (i : nat) (es : list nat) | EdgeDone (r : add_edge_result) | Removed (ns es : list nat).

Section Calls.
Context {O : Ops} {T U : Type} (dT : T).
Local Notation graph := (PlanarGraph O T U).

Definition call (g : graph) (o : @op O T U) : res (graph * answer) :=
  match o with
  | OAddNode p d => let! (g', (i, es)) := add_node g p d in Ok (g', NodeAt i es)
  | OAddEdge s d u => let! (g', r) := add_edge dT g s d u in Ok (g', EdgeDone r)
  | ORemoveNode i => let! (g', (ns, es)) := remove_node g i in Ok (g', Removed ns es)
  | ORemoveEdge i => let! (g', (ns, es)) := remove_edge g i in Ok (g', Removed ns es)
  end.
Fixpoint calls (g : graph) (os : list (@op O T U)) : res (graph * list answer) :=
  match os with
  | [] => Ok (g, [])
  | o :: os' => let! (g1, a) := call g o in let! (g2, l) := calls g1 os' in Ok (g2, a :: l)
  end.
End Calls.

Section Sim.
Context {lm : Libm} {T U : Type} (dT : T).
Local Notation F := (FO lm).
Local Notation rp := real_point.

(** The same node, its f32 position within [tol] of the exact one. *)
Definition node_near (tol : R) (n : Node F T) (m : Node XO T) : Prop :=
  exists x, position m = xp x /\ pfin (position n) /\ dist (rp (position n)) x <= tol /\
    ndata n = ndata m /\ nlabel n = nlabel m.

(** How far a node may have drifted that was made by [n] crossings of crossings. *)
Fixpoint drift (M K : R) (n : nat) : R :=
  match n with
  | O => 0
  | S n' => slip M (5 / 4 * K) + (5 / 2 * K + 1) * drift M K n'
  end.

(** Drawings with coordinates up to [M], crossings conditioned up to [K], distances at
    least [dl] and crossings of crossings up to the depth [G], the drift of which [slip M H]
    covers.  For instance M = 13 * 2^-15, K = 2, dl = 2^-15, G = 2, H = 23. *)
Definition steady (M K dl H : R) (G : nat) : Prop :=
  u32 <= M /\ 1 <= K /\ 5 / 4 * K <= H <= 1000 /\ M * (108 + 204 * H) <= 199 / 100 /\
  40 * u32 * K <= dl /\ 32 * u32 * M <= dl * dl /\
  drift M K G + slip M (5 / 4 * K) <= slip M H.

Definition within (B : R) (p : point) : Prop := Rabs (vx p) <= B /\ Rabs (vy p) <= B.

(** Every crossing of the segment from node [s] to node [d] has a depth up to [G], greater
    than that of the ends of the two segments that cross. *)
Definition climbs (G : nat) (depth : point -> nat) (ps : list point) (es : list (Edge U)) (s d : nat) : Prop :=
  forall e x, In e es -> edge_on ps e x -> on_segment (pt ps s) (pt ps d) x ->
    (forall k, (k < length ps)%nat -> x <> pt ps k) ->
    (depth x <= G)%nat /\ forall k, k = s \/ k = d \/ touches k e -> (depth (pt ps k) < depth x)%nat.

Section Calm.
Variables (M K dl H : R) (G : nat) (depth : point -> nat).

(** A call with room to spare, on the exact drawing [ps], [es]. *)
Definition calm_op (ps : list point) (es : list (Edge U)) (o : @op F T U) : Prop :=
  match o with
  | OAddNode p _ => pfin p /\
      ((exists k, (k < length ps)%nat /\ dist (rp p) (pt ps k) <= slip M H) \/
       (within (M - slip M H) (rp p) /\ lone dl ps es (rp p)))
  | OAddEdge s d _ => s <> d /\
      ((exists e, In e es /\ joins s d e) \/ ~ (s < length ps /\ d < length ps)%nat \/
       (clear_way dl K ps es s d /\ climbs G depth ps es s d))
  | _ => True
  end.

(** A history of calls, with room to spare on every drawing that the exact program makes.
    (Nothing is said here about the f32 program.) *)
Fixpoint calm (g : PlanarGraph XO T U) (os : list (@op F T U)) : Prop :=
  match os with
  | [] => True
  | o :: os' =>
      (exists ps, drawn g ps /\ (forall p, In p ps -> within (M - slip M H) p) /\ spaced dl ps (edges g) /\ calm_op ps (edges g) o) /\
      forall g', step dT g (exact_op o) = Ok g' -> calm g' os'
  end.

(** The f32 node has drifted by as much as its depth allows. *)
Definition drifted (n : Node F T) (m : Node XO T) : Prop :=
  exists x, position m = xp x /\ pfin (position n) /\
    dist (rp (position n)) x <= drift M K (Nat.min (depth x) G) /\ ndata n = ndata m /\ nlabel n = nlabel m.
End Calm.
End Sim.

(** ** Drawing a list of segments *)
(** The calls add_edge(s, d, u), for (s, d, u) in the list. *)
Definition adds {O : Ops} {T U : Type} (l : list (nat * nat * U)) : list (@op O T U) :=
  map (fun c => OAddEdge (fst (fst c)) (snd (fst c)) (snd c)) l.
(** Two segments that do not join the same two nodes. *)
Definition differ (c c' : nat * nat) : Prop :=
  ~ ((fst c = fst c' /\ snd c = snd c') \/ (fst c = snd c' /\ snd c = fst c')).

(** Two f32 graphs that are the same drawing up to numbering, direction, and moving nodes
    by [tol]. *)
Definition alike {lm : Libm} {T U : Type} (tol : R) (g1 g2 : PlanarGraph (FO lm) T U) : Prop :=
  let ends e f := (dist (pt (places g1) (src e)) (pt (places g2) (src f)) <= tol /\ dist (pt (places g1) (dst e)) (pt (places g2) (dst f)) <= tol) \/
    (dist (pt (places g1) (src e)) (pt (places g2) (dst f)) <= tol /\ dist (pt (places g1) (dst e)) (pt (places g2) (src f)) <= tol) in
  length (nodes g1) = length (nodes g2) /\ length (edges g1) = length (edges g2) /\
  (forall p, In p (places g1) -> exists q, In q (places g2) /\ dist p q <= tol) /\
  (forall q, In q (places g2) -> exists p, In p (places g1) /\ dist p q <= tol) /\
  (forall e, In e (edges g1) -> exists f, In f (edges g2) /\ ends e f) /\
  (forall f, In f (edges g2) -> exists e, In e (edges g1) /\ ends e f).
