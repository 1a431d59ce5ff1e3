(** * Concrete f32 graphs used as examples and counterexamples. *)
From Coq Require Import List ZArith Bool Lia String.
From Flocq Require Import Core.Core IEEE754.BinarySingleNaN.
From Verif Require Import Scalar Utils Polygon Graph GraphSpec.
Import ListNotations.

(** sin/cos/acos are not used by the graph; any libm will do. *)
Definition lm0 : Libm := mkLibm (fun x => x) (fun x => x) (fun x => x).
Notation F := (FO lm0).
Notation G := (PlanarGraph F nat nat).

Definition xy (x y : Z) : Vec2 F := P2 (f32_Z x) (f32_Z y).
Definition N (x y : Z) : @op F nat nat := OAddNode (xy x y) 7.
Definition E (s d u : nat) : @op F nat nat := OAddEdge s d u.
Definition RN (i : nat) : @op F nat nat := ORemoveNode i.
Definition RE (i : nat) : @op F nat nat := ORemoveEdge i.

Definition is_ok {A} (r : res A) : bool := match r with Ok _ => true | Panic => false end.
Definition got {A} (dflt : A) (r : res A) : A := match r with Ok a => a | Panic => dflt end.

Lemma got_ok : forall A (d : A) r, is_ok r = true -> r = Ok (got d r).
Proof. intros A d [a|]; easy. Qed.

Lemma not_ok : forall A (r : res A), is_ok r = false -> r = Panic.
Proof. intros A [a|]; easy. Qed.

Definition build (os : list (@op F nat nat)) : G := got graph_new (run 0 graph_new os).

(** What can be compared by computation: ends and data of every edge. *)
Definition shape (g : G) : list (nat * nat * nat) :=
  map (fun e => (src e, dst e, edata e)) (edges g).

(** The coordinates of node [i] in canonical form. *)
Definition where_is (g : G) (i : nat) :=
  option_map (fun n : Node F nat => (B2SF (vx (position n) : f32), B2SF (vy (position n) : f32)))
    (get_vertex g i).

Lemma build_ok : forall os, is_ok (run 0 graph_new os) = true -> run 0 graph_new os = Ok (build os).
Proof. intros. now apply got_ok. Qed.

Lemma build_reachable : forall os, is_ok (run 0 graph_new os) = true -> reachable 0 (build os).
Proof. intros os H. exists os. now apply build_ok. Qed.

(** Two crossing edges: a node appears at the crossing and both edges are split. *)
Definition cross : list (@op F nat nat) :=
  [N (-2) 0; N 2 0; N 0 (-2); N 0 2; E 0 1 10; E 2 3 20].
Lemma cross_ok : is_ok (run 0 graph_new cross) = true.
Proof. vm_compute. reflexivity. Qed.
Lemma cross_shape : List.length (nodes (build cross)) = 5 /\
  shape (build cross) = [(0, 4, 10); (2, 4, 20); (1, 4, 10); (3, 4, 20)].
Proof. vm_compute. easy. Qed.

(** A third edge through the crossing node is not split there. *)
Definition star : list (@op F nat nat) := cross ++ [N (-2) (-2); N 2 2; E 5 6 30].
Lemma star_ok : is_ok (run 0 graph_new star) = true.
Proof. vm_compute. reflexivity. Qed.

Lemma star_positions :
  B2SF (vx (pos_at (nodes (build star)) 4)) = SpecFloat.S754_zero false /\
  B2SF (vy (pos_at (nodes (build star)) 4)) = SpecFloat.S754_zero false /\
  B2SF (vx (pos_at (nodes (build star)) 5)) = SpecFloat.S754_finite true 8388608 (-22) /\
  B2SF (vy (pos_at (nodes (build star)) 5)) = SpecFloat.S754_finite true 8388608 (-22) /\
  B2SF (vx (pos_at (nodes (build star)) 6)) = SpecFloat.S754_finite false 8388608 (-22) /\
  B2SF (vy (pos_at (nodes (build star)) 6)) = SpecFloat.S754_finite false 8388608 (-22).
Proof. repeat split; vm_compute; reflexivity. Qed.

(** A triangle. *)
Definition triangle : list (@op F nat nat) := [N 0 0; N 4 0; N 0 4; E 0 1 1; E 1 2 2; E 2 0 3].
Lemma triangle_ok : is_ok (run 0 graph_new triangle) = true.
Proof. vm_compute. reflexivity. Qed.

(** Collinear edges from the same node, then a node on both. *)
Definition overlap : list (@op F nat nat) := [N 0 0; N 4 0; N 8 0; E 0 1 1; E 0 2 2; N 2 0].
Lemma overlap_ok : is_ok (run 0 graph_new overlap) = true.
Proof. vm_compute. reflexivity. Qed.

(** An edge drawn over an isolated node (2), and a fourth node. *)
Definition tee : list (@op F nat nat) := [N 0 0; N 10 0; N 5 0; N 5 5; E 0 1 1].
Lemma tee_ok : is_ok (run 0 graph_new tee) = true.
Proof. vm_compute. reflexivity. Qed.

(** examples/simple_graph: the calls of the repository's example program. *)
Definition simple_graph : list (@op F nat nat) :=
  [N 100 100; N 200 100; N 150 50; N 150 150; E 0 1 0; E 2 3 0; RN 0; RE 1; RN 1].
