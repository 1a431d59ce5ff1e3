(** * Drawings with room to spare: distances between the nodes, edges and crossings of an
    f32 drawing that are larger than what rounding can bridge (definitions only). *)
From Coq Require Import Reals List.
From Flocq Require Import Core.Core.
From Verif Require Import Scalar Utils Graph GraphSpec PlaneSpec PlanarSpec GridSpec GeoSpec.
Import ListNotations.
Local Open Scope R_scope.

(** The point [p] is at distance at least [dl] from the segment [a b]. *)
Definition off (dl : R) (a b p : point) : Prop := forall x, on_segment a b x -> dl <= dist p x.

(** [a] and [b] lie on one side of the line through [c] and [d], at distance at least [dl]
    from it. *)
Definition beside (dl : R) (c d a b : point) : Prop :=
  (dl * dist c d <= cross c d c a /\ dl * dist c d <= cross c d c b) \/
  (cross c d c a <= - (dl * dist c d) /\ cross c d c b <= - (dl * dist c d)).

Section Drawing.
Context {U : Type}.
Local Notation edge := (Edge U).

Definition edge_off (dl : R) (ps : list point) (e : edge) (p : point) : Prop :=
  off dl (pt ps (src e)) (pt ps (dst e)) p.

(** Edges join different stored nodes, nodes are at least [dl] apart, and at least [dl]
    away from the edges they are not an end of. *)
Definition spaced (dl : R) (ps : list point) (es : list edge) : Prop :=
  (forall e, In e es -> src e <> dst e /\ (src e < length ps)%nat /\ (dst e < length ps)%nat) /\
  (forall i j, (i < length ps)%nat -> (j < length ps)%nat -> i <> j -> dl <= dist (pt ps i) (pt ps j)) /\
  (forall k e, (k < length ps)%nat -> In e es -> ~ touches k e -> edge_off dl ps e (pt ps k)).

(** [x] is at least [dl] away from all nodes, and from every edge that does not pass
    through it. *)
Definition lone (dl : R) (ps : list point) (es : list edge) (x : point) : Prop :=
  (forall k, (k < length ps)%nat -> dl <= dist x (pt ps k)) /\
  (forall e, In e es -> edge_on ps e x \/ edge_off dl ps e x).

(** How edge number [i] may lie with respect to the segment from node [s] to node [d]:
    they share an end (two edges that end in the same node must not be almost parallel);
    one of them is on one side of the other; or they cross, at a point away from all nodes
    and all other edges and not at too small an angle ([cond] is about 1 over the sine). *)
Definition passes (dl K : R) (ps : list point) (es : list edge) (s d i : nat) (e : edge) : Prop :=
  let a := pt ps (src e) in let b := pt ps (dst e) in let c := pt ps s in let dd := pt ps d in
  let well := cross a b c dd <> 0 /\ cond a b c dd <= K in
  src e = s \/ src e = d \/ dst e = s \/ (dst e = d /\ well) \/
  beside dl c dd a b \/ beside dl a b c dd \/
  (well /\ exists x, edge_on ps e x /\ on_segment c dd x /\
     (forall k, (k < length ps)%nat -> dl <= dist x (pt ps k)) /\
     forall j f, j <> i -> nth_error es j = Some f -> edge_off dl ps f x).

(** The segment from [s] to [d] keeps away from the other nodes, and passes every edge. *)
Definition clear_way (dl K : R) (ps : list point) (es : list edge) (s d : nat) : Prop :=
  (forall k, (k < length ps)%nat -> k <> s -> k <> d -> off dl (pt ps s) (pt ps d) (pt ps k)) /\
  (forall i e, nth_error es i = Some e -> passes dl K ps es s d i e).
End Drawing.

(** How far a computed crossing may be from the exact one, in a drawing with coordinates
    up to [M] and crossings conditioned up to [K]. *)
Definition slip (M K : R) : R := u32 * M * (14 + 34 * K).

(** The drawing is small enough for the absolute tolerance f32::EPSILON = 2^-23 of the code
    to cover the rounding errors, and the distances kept are large enough not to be covered
    by it: for instance M = 2^-9, K = 4 and dl = 2^-15. *)
Definition fine (M K dl : R) : Prop :=
  u32 <= M /\ 1 <= K <= 1000 /\ M * (108 + 204 * K) <= 199 / 100 /\
  8 * u32 <= dl /\ 6 * u32 * M + 5 * (u32 * u32) <= dl * dl.

Section Histories.
Context {lm : Libm} {T U : Type} (dT : T).
Local Notation graph := (PlanarGraph (FO lm) T U).

(** A point where a node may be put: within EPSILON of a node (which is then reused), or
    within [slip] of a point that is away from everything that does not pass through it. *)
Definition room_at (M K dl : R) (g : graph) (p : point) : Prop :=
  (exists k, (k < length (nodes g))%nat /\ dist p (pt (places g) k) < eps32 * (1 - 4 * u32)) \/
  (exists x, dist p x <= slip M K /\ Rabs (vx x) <= M /\ Rabs (vy x) <= M /\ lone dl (places g) (edges g) x).

(** A call with room to spare. *)
Definition room_op (M K dl : R) (g : graph) (o : @op (FO lm) T U) : Prop :=
  match o with
  | OAddNode p _ => pfin p /\ room_at M K dl g (real_point p)
  | OAddEdge s d _ => s <> d /\
      (adjacent g s d \/ ~ (s < length (nodes g) /\ d < length (nodes g))%nat \/
       clear_way dl K (places g) (edges g) s d)
  | _ => True
  end.

(** A history of calls on drawings with coordinates up to [M] whose nodes and edges keep
    the distance [dl], each call with room to spare.  (Nothing is said here about edges
    crossing edges.) *)
Fixpoint roomy (M K dl : R) (g : graph) (os : list (@op (FO lm) T U)) : Prop :=
  match os with
  | [] => True
  | o :: os' =>
      (forall n, In n (nodes g) -> pbound M (position n)) /\ spaced dl (places g) (edges g) /\
      room_op M K dl g o /\ forall g', step dT g o = Ok g' -> roomy M K dl g' os'
  end.
End Histories.
