(** * Property C134: how many nodes and edges a drawing has. *)
From Coq Require Import Reals List Arith Bool Lia Lra Permutation ZArith.
From Verif Require Import Scalar Utils Graph GraphSpec Laws PlaneSpec UtilsReal PlanarSpec GraphAdd GraphPlanar PlanarDemo
  DrawSpec Draw SimSpec GeoSpec MarginSpec GridSpec Size SizeAny Properties_Planar Properties_Draw Properties_Sim DrawSpec.
Import ListNotations.
Local Open Scope nat_scope.

(** Exact arithmetic.  One call: a new node for each new crossing, and two more edges for
    each of them. *)
Theorem C134_add_edge :
  forall (T U : Type) (dT : T) (g g' : PlanarGraph XO T U) ps s d u r, drawn g ps -> well_drawn ps (edges g) ->
  general_position ps (edges g) s d -> s <> d -> ~ adjacent g s d -> s < length ps -> d < length ps ->
  add_edge dT g s d u = Ok (g', r) ->
  exists crossings, NoDup crossings /\
    (forall x, In x crossings <-> ~ In x ps /\ on_segment (pt ps s) (pt ps d) x /\ covers ps (edges g) x) /\
    length (nodes g') = length (nodes g) + length crossings /\
    length (edges g') = length (edges g) + 1 + 2 * length crossings.
Proof.
  intros T U dT g g' ps s d u r D W GP N NA Ls Ld H. destruct (add_edge_size dT g g' ps s d u r D W GP N NA Ls Ld H) as (qs & D' & ND & Q & E).
  exists qs. split; [exact ND|]. split; [exact Q|]. rewrite (drawn_length _ _ D'), (drawn_length _ _ D), app_length. auto.
Qed.
Print Assumptions C134_add_edge.
Theorem C134_add_node :
  forall (T U : Type) (g g' : PlanarGraph XO T U) ps p d i ces, drawn g ps -> well_drawn ps (edges g) -> good_place ps (edges g) p ->
  (forall k, k < length ps -> (eps32 < dist p (pt ps k))%R) -> add_node g (xp p) d = Ok (g', (i, ces)) ->
  length (nodes g') = S (length (nodes g)) /\
  (covers ps (edges g) p -> length (edges g') = S (length (edges g))) /\ (~ covers ps (edges g) p -> edges g' = edges g).
Proof. intros T U. exact add_node_size. Qed.
Print Assumptions C134_add_node.

(** Any number of segments: [n] of them drawn into [m] edges make at most
    [n * m + n * (n - 1) / 2] new nodes. *)
Theorem C134_draws :
  forall (T U : Type) (dT : T) l (g g' : PlanarGraph XO T U) ps, draws dT g l g' -> drawn g ps -> well_drawn ps (edges g) ->
  (forall c, In c (map fst l) -> fst c < length ps /\ snd c < length ps) ->
  exists k, length (nodes g') = length (nodes g) + k /\ length (edges g') = length (edges g) + length l + 2 * k /\
    2 * k <= 2 * (length l * length (edges g)) + length l * (length l - 1).
Proof. intros T U dT. exact (draws_size dT). Qed.
Print Assumptions C134_draws.

(** f32, with room to spare. *)
Theorem C134_f32 :
  forall lm (T U : Type) (dT : T) M K dl H G depth (g : PlanarGraph (FO lm) T U) l, steady M K dl H G ->
  (forall n, In n (nodes g) -> pfin (position n)) -> planar_f32 g -> ForallOrdPairs differ (map fst l) ->
  (forall c, In c (map fst l) -> fst c <> snd c /\ fst c < length (nodes g) /\ snd c < length (nodes g) /\ ~ adjacent g (fst c) (snd c)) ->
  calm (lm := lm) dT M K dl H G depth (exact_graph g) (adds l) ->
  exists g' a k, calls dT g (adds l) = Ok (g', a) /\ length (nodes g') = length (nodes g) + k /\
    length (edges g') = length (edges g) + length l + 2 * k /\
    2 * k <= 2 * (length l * length (edges g)) + length l * (length l - 1).
Proof. intros lm T U dT M K dl H G depth g l St. exact (f32_size dT M K dl H G St depth g l). Qed.
Print Assumptions C134_f32.

(** Any scalars, any graph: what one call can add at most. *)
Theorem C134_growth :
  forall (O : Ops) (T U : Type) (dT : T) (g : PlanarGraph O T U),
  (forall p d g' r, add_node g p d = Ok (g', r) ->
     length (nodes g') <= length (nodes g) + 1 /\ length (edges g') <= 2 * length (edges g)) /\
  (forall s d u g' r, add_edge dT g s d u = Ok (g', r) ->
     exists k, k <= length (edges g) /\ length (nodes g') <= length (nodes g) + k /\ length (edges g') <= (length (edges g) + 1) * 2 ^ k).
Proof.
  intros O T U dT g. split.
  - intros p d g' r. exact (add_node_growth g g' p d r).
  - intros s d u g' r. exact (add_edge_growth dT g g' s d u r).
Qed.
Print Assumptions C134_growth.

(** Two crossing segments: one new node, four edges; as many as there can be. *)
Example C134_example : exists g', draws 0 w4_empty [(0, 1, 10); (2, 3, 20)] g' /\ length (nodes g') = 5 /\ length (edges g') = 4.
Proof.
  destruct C123_example as (D & W & g1 & _ & H & _). exists g1. split; [exact H|].
  assert (I : forall c, In c (map fst [(0, 1, 10); (2, 3, 20)]) -> fst c < length w4 /\ snd c < length w4).
  { intros c [<-|[<-|[]]]; cbn; lia. }
  destruct (C134_draws nat nat 0 _ _ _ w4 H D W I) as (k & Ek & Ee & B). cbn in Ek, Ee, B.
  destruct (C123_nodes_at_crossings nat nat 0 _ _ w4 _ D W I H) as (ps' & D' & W' & _ & N). pose proof (drawn_length _ _ D') as L.
  assert (5 <= length ps').
  { assert (ND : NoDup (P2 0 0 :: w4)%R).
    { assert (NDw : NoDup w4) by apply (well_plane _ _ _ W). constructor; [|exact NDw]. cbn. intros [E|[E|[E|[E|[]]]]]; injection E; lra. }
    apply (NoDup_incl_length ND). intros x [<-|Hx]; apply N; [|now left]. right. right.
    exists 0, 1, 0, 1, 10, 2, 3, 20. repeat split; auto; exists (/ 2)%R; (split; [lra|]); unfold along; cbn; f_equal; lra. }
  assert (Q : length ps' = S (S (S (S k)))) by (transitivity (length (nodes g1)); [now symmetry|exact Ek]). assert (5 <= S (S (S (S k)))) by (rewrite <- Q; assumption). assert (k = 1) by lia. subst k. split; [exact Ek|exact Ee].
Qed.
Definition origin : point := P2 0%R 0%R.
Example C134_node_example : exists g' i ces, add_node w4_graph (xp origin) 3 = Ok (g', (i, ces)) /\ good_place w4 (edges w4_graph) origin /\
  (forall k, k < length w4 -> (eps32 < dist origin (pt w4 k))%R) /\ covers w4 (edges w4_graph) origin /\ length (edges w4_graph) = 1.
Proof.
  assert (V : valid w4_graph) by (intros e [<-|[]]; simpl; lia). destruct (add_node_total w4_graph (xp origin) 3 V) as ([g' [i ces]] & H).
  exists g', i, ces. split; [exact H|]. split; [apply C124_example|]. split; [|split; [|reflexivity]].
  - intros k Hk. cbn in Hk. assert (k = 0 \/ k = 1 \/ k = 2 \/ k = 3) as [->|[->|[->| ->]]] by lia; apply unit_apart; simpl; lra.
  - eexists. split; [now left|]. exists (/ 2)%R. split; [lra|]. unfold along, origin; cbn; f_equal; lra.
Qed.
Example C134_f32_example : forall lm, exists M K dl H G depth (g : PlanarGraph (FO lm) nat nat) l, steady M K dl H G /\
  (forall n, In n (nodes g) -> pfin (position n)) /\ planar_f32 g /\ ForallOrdPairs differ (map fst l) /\
  (forall c, In c (map fst l) -> fst c <> snd c /\ fst c < length (nodes g) /\ snd c < length (nodes g) /\ ~ adjacent g (fst c) (snd c)) /\
  calm (lm := lm) 0 M K dl H G depth (exact_graph g) (adds l) /\ length l = 2 /\ length (edges g) = 2.
Proof.
  intros lm. destruct (C127_example lm) as (E1 & E2 & E3 & _ & E5 & E6 & E7 & _). do 8 eexists. split; [exact E1|]. split; [exact E2|]. split; [exact E3|]. split; [exact E5|]. split; [exact E6|]. split; [exact E7|]. split; reflexivity.
Qed.

(** A segment through an end of another one is not in general position: it is split there
    although no node is added. *)
Definition tee (lm : Libm) : PlanarGraph (FO lm) nat nat :=
  MkGraph (map (fun p : Z * Z => MkNode (@P2 (FO lm) (f32_of (fst p) 0) (f32_of (snd p) 0)) 0 DEFAULT_LABEL)
    [(-2, 0); (2, 0); (0, 0); (0, 2)]%Z) [].
Definition tee_sizes (lm : Libm) (l : list (nat * nat * nat)) : option (nat * nat) :=
  match calls 0 (tee lm) (adds l) with Ok (g, _) => Some (length (nodes g), length (edges g)) | Panic => None end.
Example C134_fails_at_tee : forall lm, tee_sizes lm [(2, 3, 1)] = Some (4, 1) /\ tee_sizes lm [(2, 3, 1); (0, 1, 2)] = Some (4, 3).
Proof. intros lm. split; vm_compute; reflexivity. Qed.
