(** * Plane geometry used in statements: points with real coordinates. *)
From Coq Require Import Reals List.
From Flocq Require Import Core.Core IEEE754.BinarySingleNaN.
From Verif Require Import Scalar Utils Graph GraphSpec.
Local Open Scope R_scope.

Notation point := (Vec2 R).

(** The point p + t (q - p). *)
Definition along (p q : point) (t : R) : point :=
  P2 (vx p + t * (vx q - vx p)) (vy p + t * (vy q - vy p)).

(** [x] lies on the closed segment [p q]. *)
Definition on_segment (p q x : point) : Prop := exists t, 0 <= t <= 1 /\ x = along p q t.

(** A drawing with straight edges is planar: no node lies on an edge it is not an end
    of, and two different edges meet only at a common end node. *)
Definition planar_drawing {U} (pos : nat -> point) (n : nat) (es : list (Edge U)) : Prop :=
  (forall k e, (k < n)%nat -> In e es -> ~ touches k e ->
     ~ on_segment (pos (src e)) (pos (dst e)) (pos k)) /\
  (forall i j ei ej x, i <> j -> nth_error es i = Some ei -> nth_error es j = Some ej ->
     on_segment (pos (src ei)) (pos (dst ei)) x ->
     on_segment (pos (src ej)) (pos (dst ej)) x ->
     exists k, touches k ei /\ touches k ej /\ x = pos k).

(** The real coordinates of an f32 point (0 for NaN and infinities). *)
Definition real_point (p : Vec2 f32) : point := P2 (B2R (vx p)) (B2R (vy p)).

Definition planar_f32 {lm T U} (g : PlanarGraph (FO lm) T U) : Prop :=
  planar_drawing (fun i => real_point (pos_at (nodes g) i)) (length (nodes g)) (edges g).

(** Euclidean distance, cross and dot product of the vectors p q and r s. *)
Definition dist (p q : point) : R :=
  sqrt ((vx q - vx p) * (vx q - vx p) + (vy q - vy p) * (vy q - vy p)).
Definition cross (p q r s : point) : R :=
  (vx q - vx p) * (vy s - vy r) - (vy q - vy p) * (vx s - vx r).
Definition dot (p q r s : point) : R :=
  (vx q - vx p) * (vx s - vx r) + (vy q - vy p) * (vy s - vy r).

(** [x] lies on the infinite line through [p] and [q]. *)
Definition on_line (p q x : point) : Prop := exists t, x = along p q t.

(** Three points on a common line (coincident points included). *)
Definition collinear3 (a b c : point) : Prop := cross a b a c = 0.

(** [x] lies strictly inside the triangle [a b c]. *)
Definition inside_triangle (a b c x : point) : Prop :=
  exists u v w, 0 < u /\ 0 < v /\ 0 < w /\ u + v + w = 1 /\
    x = P2 (u * vx a + v * vx b + w * vx c) (u * vy a + v * vy b + w * vy c).

(** Distance from [x] to the line through [p] and [q] (two different points). *)
Definition line_dist (p q x : point) : R := Rabs (cross p q p x) / dist p q.

(** A real point as an argument of the exact-arithmetic model. *)
Definition xp (p : point) : Vec2 XO := P2 (Some (vx p) : XO) (Some (vy p) : XO).
