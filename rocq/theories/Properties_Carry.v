(** * C154: the data and the labels are carried, never read.

    [dress ft fu fn fe g] is g with ft applied to the data and fn to the label of every
    node, fu and fe to those of every edge; [dress_op ft fu o] is the call o with other
    data; [onok f] applies f to a result that is not a panic; [dress_with] leaves the report
    as it is.  All this for every arithmetic. *)
From Coq Require Import List Arith Bool Lia ZArith String.
From Flocq Require Import Core.Core IEEE754.BinarySingleNaN.
From Verif Require Import Scalar Utils Polygon Graph GraphSpec F32 GraphDemo UtilsF32 PolyF32 PolyNewF32
  Properties_Utils Properties_Polygon CarrySpec Carry.
Import ListNotations.
Local Open Scope list_scope.

Theorem C154_calls :
  forall (O : Ops) (T U T' U' : Type) (ft : T -> T') (fu : U -> U') (fn fe : string -> string) (dT : T) (g : PlanarGraph O T U),
  fn DEFAULT_LABEL = DEFAULT_LABEL -> fe DEFAULT_LABEL = DEFAULT_LABEL ->
  let g' := dress ft fu fn fe g in
  (forall p v, add_node g' p (ft v) = onok (dress_with ft fu fn fe) (add_node g p v)) /\
  (forall s d u, add_edge (ft dT) g' s d (fu u) = onok (dress_with ft fu fn fe) (add_edge dT g s d u)) /\
  (forall i, remove_node g' i = onok (dress_with ft fu fn fe) (remove_node g i)) /\
  (forall i, remove_edge g' i = onok (dress_with ft fu fn fe) (remove_edge g i)).
Proof.
  intros O T U T' U' ft fu fn fe dT g Hn He. split; [|split; [|split]].
  - exact (dress_add_node ft fu fn fe Hn He g).
  - exact (dress_add_edge ft fu fn fe Hn He dT g).
  - exact (dress_remove_node ft fu fn fe g).
  - exact (dress_remove_edge ft fu fn fe g).
Qed.
Print Assumptions C154_calls.

Theorem C154_history :
  forall (O : Ops) (T U T' U' : Type) (ft : T -> T') (fu : U -> U') (fn fe : string -> string) (dT : T) os (g : PlanarGraph O T U),
  fn DEFAULT_LABEL = DEFAULT_LABEL -> fe DEFAULT_LABEL = DEFAULT_LABEL ->
  run (ft dT) (dress ft fu fn fe g) (map (dress_op ft fu) os) = onok (dress ft fu fn fe) (run dT g os).
Proof. intros O T U T' U' ft fu fn fe dT os g Hn He. exact (dress_run ft fu fn fe Hn He dT os g). Qed.
Print Assumptions C154_history.

(** Two histories that differ in the data only, possibly of different types, both panic or
    lead to graphs that differ in the data only. *)
Definition bare {O : Ops} {T U : Type} : PlanarGraph O T U -> PlanarGraph O unit unit :=
  dress (fun _ => tt) (fun _ => tt) (fun l => l) (fun l => l).
Definition bare_op {O : Ops} {T U : Type} : @op O T U -> @op O unit unit := dress_op (fun _ => tt) (fun _ => tt).
Theorem C154_blind :
  forall (O : Ops) (T U T' U' : Type) (dT : T) (dT' : T') (os : list (@op O T U)) (os' : list (@op O T' U')) g g',
  bare g = bare g' -> map bare_op os = map bare_op os' -> onok bare (run dT g os) = onok bare (run dT' g' os').
Proof.
  intros O T U T' U' dT dT' os os' g g' Hg Ho. unfold bare, bare_op in *.
  rewrite <- (C154_history O T U unit unit (fun _ => tt) (fun _ => tt) (fun l => l) (fun l => l) dT os g eq_refl eq_refl).
  rewrite <- (C154_history O T' U' unit unit (fun _ => tt) (fun _ => tt) (fun l => l) (fun l => l) dT' os' g' eq_refl eq_refl).
  rewrite Hg, Ho. reflexivity.
Qed.
Print Assumptions C154_blind.

(** A crossing with nat data, and with the data turned into integers: node 4 gets the
    default, the halves of each edge its data. *)
Local Notation N x y v := (OAddNode (xy x y : Vec2 (FO lm0)) v).
Definition cross_ops : list (@op (FO lm0) nat nat) :=
  [N (-4) 0 1%nat; N 4 0 2%nat; N 0 (-4) 3%nat; N 0 4 4%nat; OAddEdge 0 1 5%nat; OAddEdge 2 3 6%nat; ORemoveNode 3%nat].
Definition data {T U} (r : res (PlanarGraph (FO lm0) T U)) : option (list T * list (nat * nat * U)) :=
  match r with Ok g => Some (map ndata (nodes g), map (fun f => (src f, dst f, edata f)) (edges g)) | Panic => None end.
Definition nextZ (n : nat) : Z := (Z.of_nat n + 10)%Z.
Example C154_example :
  data (run 0%nat graph_new cross_ops) = Some ([1; 2; 3; 0], [(0, 3, 5); (2, 3, 6); (1, 3, 5)])%nat /\
  data (run 10%Z graph_new (map (dress_op nextZ Z.of_nat) cross_ops)) =
    Some ([11; 12; 13; 10]%Z, [(0%nat, 3%nat, 5%Z); (2%nat, 3%nat, 6%Z); (1%nat, 3%nat, 5%Z)]) /\
  map bare_op cross_ops = map bare_op (map (dress_op nextZ Z.of_nat) cross_ops).
Proof. repeat split; vm_compute; reflexivity. Qed.
