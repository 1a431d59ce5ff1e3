(** * Model of src/geometry/polygon.rs (no proofs here).

    [vertices] is a private field and every constructor goes through
    [Polygon::new], so a Polygon reachable by a caller has at least 3 vertices;
    [len - 1] therefore never underflows in the code and is written with
    truncated subtraction here.  [println!] calls are omitted. *)
From Coq Require Import List Bool Arith.
From Verif Require Import Scalar Utils.
Import ListNotations.

(** polygon.rs:90-92 *)
Record Polygon (A : Type) := MkPolygon { vertices : list (Vec2 A) }.
Arguments MkPolygon {A}. Arguments vertices {A}.

(** [v.remove(i)] for i < len *)
Fixpoint remove_at {A} (i : nat) (l : list A) : list A :=
  match l, i with
  | [], _ => []
  | _ :: l', 0 => l'
  | x :: l', S i' => x :: remove_at i' l'
  end.

(** [v[i] = x], panicking out of bounds *)
Fixpoint set_nth {A} (i : nat) (x : A) (l : list A) : res (list A) :=
  match l, i with
  | [], _ => Panic
  | _ :: l', 0 => Ok (x :: l')
  | y :: l', S i' => let! l'' := set_nth i' x l' in Ok (y :: l'')
  end.

Section PolygonModel.
Context {O : Ops}.
Local Open Scope ops_scope.
Local Notation pt := (Vec2 O).
Local Notation poly := (Polygon O).

(** polygon.rs:7-9 area2 *)
Definition area2 (a b c : pt) : O :=
  (vx b - vx a) * (vy c - vy a) - (vx c - vx a) * (vy b - vy a).

(** polygon.rs:13-15 left *)
Definition left (a b c : pt) : bool := area2 a b c >? c0.
(** polygon.rs:19-21 left_on *)
Definition left_on (a b c : pt) : bool := area2 a b c >=? c0.
(** polygon.rs:24-26 collinear *)
Definition collinear (a b c : pt) : bool := area2 a b c =? c0.

(** polygon.rs:31-45 intersect_prop *)
Definition intersect_prop (a b c d : pt) : bool :=
  if collinear a b c || collinear a b d || collinear c d a || collinear c d b
  then false
  else xorb (left a b c) (left a b d) && xorb (left c d a) (left c d b).

(** polygon.rs:50-64 between *)
Definition between (a b c : pt) : bool :=
  if negb (collinear a b c) then false
  else if negb (vx a =? vx b)
  then ((vx a <=? vx c) && (vx c <=? vx b)) || ((vx a >=? vx c) && (vx c >=? vx b))
  else ((vy a <=? vy c) && (vy c <=? vy b)) || ((vy a >=? vy c) && (vy c >=? vy b)).

(** polygon.rs:69-82 intersect *)
Definition intersect (a b c d : pt) : bool :=
  if intersect_prop a b c d then true
  else if between a b c || between a b d || between c d a || between c d b then true
  else false.

(** polygon.rs:163-167, the loop over i in 1..len-1 (b, c consecutive) *)
Fixpoint area_loop (a : pt) (rest : list pt) (sum : O) : O :=
  match rest with
  | b :: ((c :: _) as rest') => area_loop a rest' (sum + area2 a b c)
  | _ => sum
  end.

(** polygon.rs:156-170 area_poly2 ([vertices[0]] exists: at least 3 vertices) *)
Definition area_poly2 (vs : list pt) : O :=
  match vs with
  | [] => c0
  | a :: rest => area_loop a rest c0
  end.

(** polygon.rs:96-114 Polygon::new; [None] is Err(PolygonError::Degenerate) *)
Definition polygon_new (vs : list pt) : option poly :=
  if (length vs <? 3)%nat then None
  else if area_poly2 vs <? c0 then Some (MkPolygon (rev vs))
  else Some (MkPolygon vs).

(** polygon.rs:119-126, vertex i of Polygon::regular *)
Definition regular_vertex (sides : nat) (circumradius : O) (center : pt) (i : nat) : pt :=
  let angle := (c2 * cpi) * (ofnat i / ofnat sides) in
  P2 (vx center + circumradius * ocos angle)
     (vy center + circumradius * osin angle).

(** polygon.rs:117-128 Polygon::regular *)
Definition polygon_regular (sides : nat) (circumradius : O) (center : pt) : res poly :=
  let vs := map (regular_vertex sides circumradius center) (seq 0 sides) in
  match polygon_new vs with
  | Some p => Ok p
  | None => Panic
  end.

(** polygon.rs:136-140 uniform_scale *)
Definition polygon_uniform_scale (p : poly) (s : O) : poly :=
  MkPolygon (map (fun v => p_scale v s) (vertices p)).

(** polygon.rs:143-147 translate *)
Definition polygon_translate (p : poly) (t : pt) : poly :=
  MkPolygon (map (fun v => p_add v t) (vertices p)).

(** polygon.rs:150-152 center; nalgebra's [sum] folds [+] from the zero vector *)
Definition polygon_center (p : poly) : pt :=
  p_div (fold_left p_add (vertices p) (P2 c0 c0)) (ofnat (length (vertices p))).

(** polygon.rs:173-175 area *)
Definition polygon_area (p : poly) : O := oabs (area_poly2 (vertices p)) * chalf.

(** polygon.rs:179-193 get_neighbor_indices *)
Definition get_neighbor_indices (len index : nat) : nat * nat :=
  let neighbor_prev := if Nat.eqb index 0 then (len - 1)%nat else (index - 1)%nat in
  let neighbor_next := if Nat.eqb index (len - 1)%nat then 0%nat else (index + 1)%nat in
  (neighbor_prev, neighbor_next).

(** polygon.rs:196-199 are_neighbors *)
Definition are_neighbors (len i j : nat) : bool :=
  let '(prev, next) := get_neighbor_indices len i in
  Nat.eqb prev j || Nat.eqb next j.

(** polygon.rs:203-226 in_cone *)
Definition in_cone (vs : list pt) (apex other : nat) : res bool :=
  let! a := index vs apex in
  let! b := index vs other in
  let '(prev, next) := get_neighbor_indices (length vs) apex in
  let! a0 := index vs prev in
  let! a1 := index vs next in
  if left_on a a1 a0
  then Ok (left a b a0 && left b a a1)
  else Ok (negb (left_on a b a1 && left_on b a a0)).

(** polygon.rs:239-253, the loop of [diagonal] over k; [Ok true]: ran to the end *)
Fixpoint diagonal_loop (vs : list pt) (i j : nat) (ks : list nat) : res bool :=
  match ks with
  | [] => Ok true
  | k :: ks' =>
      let k1 := ((k + 1) mod (length vs))%nat in
      if negb (Nat.eqb k i) && negb (Nat.eqb k1 i) && negb (Nat.eqb k j) && negb (Nat.eqb k1 j)
      then
        let! vi := index vs i in
        let! vj := index vs j in
        let! vk := index vs k in
        let! vk1 := index vs k1 in
        if intersect vi vj vk vk1 then Ok false else diagonal_loop vs i j ks'
      else diagonal_loop vs i j ks'
  end.

(** polygon.rs:231-259 diagonal *)
Definition diagonal (vs : list pt) (i j : nat) : res bool :=
  if Nat.eqb i j then Ok false
  else
    let! clear := diagonal_loop vs i j (seq 0 (length vs)) in
    if clear then
      let! c := in_cone vs i j in
      if c then in_cone vs j i else Ok false
    else Ok false.

(** polygon.rs:274-277: initial ear flags *)
Fixpoint ear_flags (vs : list pt) (is : list nat) : res (list bool) :=
  match is with
  | [] => Ok []
  | i :: is' =>
      let '(prev, next) := get_neighbor_indices (length vs) i in
      let! e := diagonal vs prev next in
      let! es := ear_flags vs is' in
      Ok (e :: es)
  end.

(** polygon.rs:285-287: the first v2 with is_ear[v2] (None: the for loop ends
    without having found an ear) *)
Fixpoint find_ear (is_ear : list bool) (i : nat) : option nat :=
  match is_ear with
  | [] => None
  | true :: _ => Some i
  | false :: r => find_ear r (S i)
  end.

(** polygon.rs:315-326: shift an index past the removed vertex v2 *)
Definition shift (v v2 : nat) : nat := if (v2 <? v)%nat then (v - 1)%nat else v.

(** polygon.rs:288-333: clip the ear at v2; returns the triangle, the remaining
    vertices and the updated flags *)
Definition clip_ear (vs : list pt) (is_ear : list bool) (v2 : nat)
  : res (poly * list pt * list bool) :=
  let '(v1, v3) := get_neighbor_indices (length vs) v2 in
  let '(_, v4) := get_neighbor_indices (length vs) v3 in
  let '(v0, _) := get_neighbor_indices (length vs) v1 in
  let! p1 := index vs v1 in
  let! p2 := index vs v2 in
  let! p3 := index vs v3 in
  match polygon_new [p1; p2; p3] with
  | None => Panic
  | Some tri =>
      let vs' := remove_at v2 vs in
      let is_ear := remove_at v2 is_ear in
      let v0 := shift v0 v2 in
      let v1 := shift v1 v2 in
      let v3 := shift v3 v2 in
      let v4 := shift v4 v2 in
      let! e1 := diagonal vs' v0 v3 in
      let! is_ear := set_nth v1 e1 is_ear in
      let! e3 := diagonal vs' v1 v4 in
      let! is_ear := set_nth v3 e3 is_ear in
      Ok (tri, vs', is_ear)
  end.

(** polygon.rs:283-342: the while loop; [None] = fuel exhausted.  When no flag is
    set the inner for loop falls through and the while loop goes round again with
    the same state. *)
Fixpoint triangulate_loop (fuel : nat) (vs : list pt) (is_ear : list bool)
  (triangles : list poly) : option (res (list poly)) :=
  match fuel with
  | 0 => None
  | S fuel' =>
      if (3 <? length vs)%nat then
        match find_ear is_ear 0 with
        | None => triangulate_loop fuel' vs is_ear triangles
        | Some v2 =>
            match clip_ear vs is_ear v2 with
            | Panic => Some Panic
            | Ok (tri, vs', is_ear') =>
                triangulate_loop fuel' vs' is_ear' (triangles ++ [tri])
            end
        end
      else Some (Ok (triangles ++ [MkPolygon vs]))
  end.

(** polygon.rs:261-343 triangulate; [None] = still running after [fuel] rounds *)
Definition triangulate (fuel : nat) (p : poly) : option (res (list poly)) :=
  let vs := vertices p in
  if Nat.eqb (length vs) 3 then Some (Ok [p])
  else
    match ear_flags vs (seq 0 (length vs)) with
    | Panic => Some Panic
    | Ok is_ear => triangulate_loop fuel vs is_ear []
    end.

End PolygonModel.
