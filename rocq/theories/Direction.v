(** * The direction of the edges (proofs for C158). *)
From Coq Require Import List Arith Bool Lia Permutation.
From Verif Require Import Scalar Utils Polygon Graph GraphSpec Laws GraphAdd GraphRemove ShuffleSpec Shuffle DirectionSpec.
Import ListNotations.

Section Any.
Context {O : Ops} {T U : Type}.
Local Notation graph := (PlanarGraph O T U).
Local Notation edge := (Edge U).

Lemma upward_or : forall e : edge, upward e = e \/ upward e = turned e.
Proof. intros e. unfold upward. destruct (src e <=? dst e); auto. Qed.
Lemma upward_turned : forall e : edge, upward (turned e) = upward e.
Proof.
  intros [s d u l]. unfold upward, turned; cbn [src dst edata elabel]. destruct (Nat.leb_spec d s), (Nat.leb_spec s d); try reflexivity; try lia.
  assert (s = d) by lia. now subst.
Qed.
Lemma upward_twice : forall e : edge, upward (upward e) = upward e.
Proof. intros e. destruct (upward_or e) as [H|H]; rewrite H; [exact H|]. now rewrite upward_turned, H. Qed.

Lemma touches_turned : forall i (e : edge), touchesb i (turned e) = touchesb i e.
Proof. intros i e. unfold touchesb, turned; cbn [src dst]. apply orb_comm. Qed.
Lemma touches_upward : forall i (e : edge), touchesb i (upward e) = touchesb i e.
Proof. intros i e. destruct (upward_or e) as [->| ->]; [reflexivity|apply touches_turned]. Qed.

Lemma filter_upward : forall (f : edge -> bool) es, (forall e, f (upward e) = f e) -> map upward (filter f es) = filter f (map upward es).
Proof. intros f es H. induction es as [|e es IH]; [reflexivity|]. cbn [map filter]. rewrite H. destruct (f e); cbn [map]; now rewrite IH. Qed.

Lemma alike_degree : forall (g h : graph) i, alike g h -> degree h i = degree g i.
Proof.
  intros g h i [N P]. unfold degree. rewrite <- !degree_filter.
  assert (E : forall es : list edge, List.length (filter (fun e => includes e i) es) = List.length (filter (fun e => includes e i) (map upward es))).
  { intros es. rewrite <- filter_upward, map_length; [reflexivity|]. intros e. rewrite !includes_touchesb. apply touches_upward. }
  rewrite (E (edges h)), (E (edges g)). apply Permutation_length, perm_filter. now apply Permutation_sym.
Qed.

Lemma alike_incident : forall (g h : graph) i, alike g h -> number_of_edges_incident_to h i = number_of_edges_incident_to g i.
Proof. intros g h i A. rewrite !incident_count, (alike_degree g h i A), (proj1 A). reflexivity. Qed.

Lemma between_upward : forall (es : list edge) a b, edge_between_loop (map upward es) a b = edge_between_loop es a b.
Proof.
  intros es a b. induction es as [|e es IH]; [reflexivity|]. cbn [map edge_between_loop]. rewrite IH.
  assert (H : (a =? src (upward e)) && (b =? dst (upward e)) || (b =? src (upward e)) && (a =? dst (upward e)) =
    ((a =? src e) && (b =? dst e) || (b =? src e) && (a =? dst e))); [|now rewrite H].
  destruct (upward_or e) as [->| ->]; [reflexivity|]. unfold turned; cbn [src dst].
  destruct (a =? src e), (b =? dst e), (b =? src e), (a =? dst e); reflexivity.
Qed.
Lemma alike_between : forall (g h : graph) a b, alike g h -> has_edge_between_nodes h a b = has_edge_between_nodes g a b.
Proof.
  intros g h a b [N P]. unfold has_edge_between_nodes. rewrite <- (between_upward (edges h)), <- (between_upward (edges g)).
  apply shuffle_between. now apply Permutation_sym.
Qed.

Section Laws.
Context (L : Laws O).
Lemma on_turned : forall (a b p : Vec2 O) i, is_on_line_segment b a p i = is_on_line_segment a b p i.
Proof.
  intros a b p i. unfold is_on_line_segment. rewrite (distance_sym L b p), (distance_sym L p a), (distance_sym L b a), (add_comm O L (distance p b) (distance a p)).
  rewrite <- !andb_assoc. f_equal. apply andb_comm.
Qed.

Lemma on_edge_turned : forall ns k (e : edge), on_edge (O := O) (T := T) ns k (turned e) = on_edge ns k e.
Proof. intros. unfold on_edge, turned; cbn [src dst]. apply on_turned. Qed.

Definition pieces (ns : list (Node O T)) k (e : edge) : list edge := if on_edge ns k e then [half1 k e; half2 k e] else [e].
Lemma pieces_upward : forall ns k e, Permutation (map upward (pieces ns k (upward e))) (map upward (pieces ns k e)).
Proof.
  intros ns k e. destruct (upward_or e) as [->| H]; [reflexivity|]. unfold pieces. rewrite H, on_edge_turned. destruct (on_edge ns k e).
  - cbn [map]. unfold half1, half2, turned; cbn [src dst edata elabel]. apply perm_swap.
  - cbn [map]. now rewrite upward_turned.
Qed.
Lemma pieces_all : forall ns k (es : list edge),
  Permutation (map upward (flat_map (pieces ns k) es)) (flat_map (fun e => map upward (pieces ns k e)) (map upward es)).
Proof.
  intros ns k. induction es as [|e es IH]; [constructor|]. cbn [map flat_map]. rewrite map_app. apply Permutation_app; [|exact IH].
  apply Permutation_sym, pieces_upward.
Qed.

Lemma upward_ends : forall n (es es' : list edge), Permutation (map upward es) (map upward es') ->
  (forall e, In e es -> src e < n /\ dst e < n) -> forall e, In e es' -> src e < n /\ dst e < n.
Proof.
  intros n es es' P V e He. apply (in_map upward) in He. apply (Permutation_in _ (Permutation_sym P)) in He. apply in_map_iff in He.
  destruct He as (f & E & Hf). specialize (V f Hf). destruct (upward_or e) as [H|H]; destruct (upward_or f) as [H'|H']; rewrite H, H' in E; clear H H';
  destruct e as [s1 d1 u1 l1], f as [s2 d2 u2 l2]; unfold turned in *; cbn [src dst edata elabel] in *; injection E as; lia.
Qed.

Lemma alike_split : forall (g h g' : graph) id c, alike g h -> split_edges_at_node g id = Ok (g', c) ->
  exists h' c', split_edges_at_node h id = Ok (h', c') /\ alike g' h'.
Proof.
  intros g h g' id c [N P] H. unfold split_edges_at_node in *. rewrite N. destruct (nth_error (nodes g) id) eqn:E; [|inv H; exists h, []; unfold alike; auto].
  apply bind_ok in H. destruct H as ([[rw ad] ch] & H & Q). inv Q. apply split_loop_ok in H. destruct H as (-> & -> & _ & _ & V).
  destruct (split_loop_total (nodes g) id (edges h) 0) as ([[rw' ad'] ch'] & H').
  - apply nth_error_Some. congruence.
  - exact (upward_ends _ _ _ P V).
  - rewrite H'. cbn [bind]. apply split_loop_ok in H'. destruct H' as (-> & -> & _). eexists. eexists. split; [reflexivity|].
    split; [reflexivity|]. cbn [edges nodes]. rewrite !split_flat. fold (pieces (nodes g) id). rewrite !pieces_all. now apply Permutation_flat_map.
Qed.

Lemma alike_add_node : forall (g h g' : graph) p v i c, alike g h -> add_node g p v = Ok (g', (i, c)) ->
  exists h' c', add_node h p v = Ok (h', (i, c')) /\ alike g' h'.
Proof.
  intros g h g' p v i c A H. pose proof A as [N P]. unfold add_node in *. unfold gather_node_positions in *. rewrite N.
  destruct (find_closest_to p (map position (nodes g))) as [k dist]. destruct (olt dist ceps); [inv H; exists h, []; auto|].
  apply bind_ok in H. destruct H as ([g2 ch] & H & E). inv E.
  set (g1 := {| nodes := nodes g ++ [MkNode p v DEFAULT_LABEL]; edges := edges g |}) in *.
  set (h1 := {| nodes := nodes g ++ [MkNode p v DEFAULT_LABEL]; edges := edges h |}) in *.
  destruct (alike_split g1 h1 g' _ _ (conj eq_refl P) H) as (h' & c' & E1 & E2). change (node_count h1) with (node_count g1). rewrite E1. cbn [bind].
  exists h', c'. split; [|exact E2]. unfold node_count. now rewrite (proj1 E2).
Qed.
End Laws.

Lemma other_upward : forall id (e : edge), touchesb id e = true -> other_end id (upward e) = other_end id e.
Proof.
  intros id e H. destruct (upward_or e) as [->| ->]; [reflexivity|]. unfold touchesb in H. unfold other_end, turned; cbn [src dst].
  destruct (Nat.eqb_spec (src e) id), (Nat.eqb_spec (dst e) id); try congruence. discriminate.
Qed.

Lemma alike_strays : forall (g h : graph) id, alike g h -> Permutation (strays g id) (strays h id).
Proof.
  intros g h id A. pose proof A as [N P]. unfold strays, remove_edges_incident_to_node. rewrite !incident_loop_nodes, N.
  set (f := fun e : edge => touchesb id e && (if other_end id e <? List.length (nodes g) then degree g (other_end id e) =? 1 else false)).
  match goal with |- Permutation _ (map _ (filter ?b _)) => rewrite (filter_ext b f) end.
  2: { intros e. unfold f. now rewrite (alike_degree g h _ A). }
  assert (K : forall es : list edge, map (other_end id) (filter f es) = map (other_end id) (filter f (map upward es))).
  { induction es as [|e es IH]; [reflexivity|]. cbn [map filter]. assert (F : f (upward e) = f e).
    { unfold f. rewrite touches_upward. destruct (touchesb id e) eqn:Te; [|reflexivity]. now rewrite (other_upward id e Te). }
    rewrite F. destruct (f e) eqn:Fe; [|exact IH]. cbn [map]. rewrite IH, (other_upward id e); [reflexivity|]. unfold f in Fe. now apply andb_true_iff in Fe. }
  rewrite (K (edges g)), (K (edges h)). apply Permutation_map, perm_filter. exact P.
Qed.

Lemma remap_upward : forall m (e : edge), upward (remap_edge m (upward e)) = upward (remap_edge m e).
Proof.
  intros m e. destruct (upward_or e) as [->| ->]; [reflexivity|].
  change (remap_edge m (turned e)) with (turned (remap_edge m e)). apply upward_turned.
Qed.

Lemma alike_remove_node : forall (g h g' : graph) id cn ce, alike g h -> remove_node g id = Ok (g', (cn, ce)) ->
  exists h' ce', remove_node h id = Ok (h', (cn, ce')) /\ alike g' h'.
Proof.
  intros g h g' id cn ce A H. pose proof A as [N P].
  destruct (Nat.lt_ge_cases id (List.length (nodes g))) as [L|L].
  - destruct (remove_node_ok g g' id cn ce L H) as (m & mn & me & H1 & H2 & H3 & H4 & H5 & H6 & H7).
    pose proof (alike_strays g h id A) as PS. assert (PS' : Permutation (id :: strays g id) (id :: strays h id)) by now constructor.
    unfold remove_node. rewrite N. destruct (nth_error (nodes g) id) eqn:E; [|apply nth_error_None in E; lia].
    rewrite (surjective_pairing (remove_edges_incident_to_node h id)). fold (strays h id). unfold node_count. rewrite N.
    rewrite (perm_remap _ _ _ PS') in H1. rewrite H1. cbn [bind]. rewrite (perm_min _ _ _ PS' H4).
    destruct (list_min (snd (remove_edges_incident_to_node h id))) as [me'|] eqn:M.
    + eexists. eexists. split; [rewrite H6; reflexivity|]. split; cbn [nodes edges].
      * rewrite H2. symmetry. now apply perm_unmarked.
      * rewrite H3, marked_edges_eq.
        assert (K : forall es : list edge, map upward (map (remap_edge m) (filter (fun e => negb (touchesb id e)) es)) =
          map (fun e => upward (remap_edge m e)) (filter (fun e => negb (touchesb id e)) (map upward es))).
        { intros es. rewrite <- filter_upward by (intros e; now rewrite touches_upward). rewrite !map_map. apply map_ext. intros e. now rewrite remap_upward. }
        rewrite !K. apply Permutation_map, perm_filter. exact P.
    + exfalso. apply list_min_none, marked_edges_empty in M. rewrite (alike_degree g h id A) in M. apply marked_edges_empty in M. rewrite M in H5. discriminate.
  - rewrite remove_node_missing in H by exact L. inv H. rewrite remove_node_missing by (rewrite N; exact L). exists h, []. auto.
Qed.

Lemma alike_sym : forall g h : graph, alike g h -> alike h g.
Proof. intros g h [N P]. split; [now symmetry|now apply Permutation_sym]. Qed.
Lemma alike_trans : forall g h k : graph, alike g h -> alike h k -> alike g k.
Proof. intros g h k [N P] [N' P']. split; [congruence|]. now transitivity (map upward (edges h)). Qed.

Lemma only_one : forall (es : list edge) a e, degree_in es a = 1 -> In e es -> touchesb a e = true -> filter (touchesb a) es = [e].
Proof.
  intros es a e D I Te. rewrite <- degree_filter in D. rewrite (filter_ext _ (touchesb a) (fun f => includes_touchesb f a)) in D.
  assert (H : In e (filter (touchesb a) es)) by (apply filter_In; auto).
  destruct (filter (touchesb a) es) as [|x [|y l]]; try discriminate. destruct H as [->|[]]. reflexivity.
Qed.

Lemma filter_both : forall A (f k : A -> bool) l, filter (fun x => f x && k x) l = filter k (filter f l).
Proof. intros A f k l. induction l as [|x l IH]; [reflexivity|]. cbn [filter]. destruct (f x); cbn [andb filter]; [|exact IH]. destruct (k x); now rewrite IH. Qed.

(** An edge whose ends have no other edge: removing either end is the same. *)
Lemma either_end : forall (g g1 g2 : graph) e c1 d1 c2 d2, valid g -> In e (edges g) -> src e <> dst e ->
  degree g (src e) = 1 -> degree g (dst e) = 1 ->
  remove_node g (src e) = Ok (g1, (c1, d1)) -> remove_node g (dst e) = Ok (g2, (c2, d2)) -> alike g1 g2 /\ c2 = c1.
Proof.
  intros g g1 g2 e c1 d1 c2 d2 V I Ne D1 D2 H1 H2. destruct (V e I) as [Ls Ld].
  destruct (remove_node_ok g g1 _ c1 d1 Ls H1) as (m & mn & me & A1 & A2 & A3 & A4 & _ & A6 & _).
  destruct (remove_node_ok g g2 _ c2 d2 Ld H2) as (m' & mn' & me' & B1 & B2 & B3 & B4 & _ & B6 & _).
  assert (Ts : touchesb (src e) e = true) by (unfold touchesb; now rewrite Nat.eqb_refl).
  assert (Td : touchesb (dst e) e = true) by (unfold touchesb; now rewrite Nat.eqb_refl, orb_true_r).
  pose proof (only_one (edges g) (src e) e D1 I Ts) as F1. pose proof (only_one (edges g) (dst e) e D2 I Td) as F2.
  assert (S1 : strays g (src e) = [dst e]).
  { unfold strays, remove_edges_incident_to_node. rewrite incident_loop_nodes, filter_both, F1. cbn [filter]. unfold other_end. rewrite Nat.eqb_refl.
    apply Nat.ltb_lt in Ld. rewrite Ld, D2. cbn. now rewrite Nat.eqb_refl. }
  assert (S2 : strays g (dst e) = [src e]).
  { unfold strays, remove_edges_incident_to_node. rewrite incident_loop_nodes, filter_both, F2. cbn [filter]. unfold other_end.
    apply Nat.eqb_neq in Ne. rewrite Ne. apply Nat.ltb_lt in Ls. rewrite Ls, D1. cbn. now rewrite Ne. }
  rewrite S1 in *. rewrite S2 in *. assert (P : Permutation [src e; dst e] [dst e; src e]) by apply perm_swap.
  rewrite (perm_remap _ _ _ P) in A1. rewrite A1 in B1. inv B1. rewrite (perm_min _ _ _ P A4) in B4. inv B4. split; [|reflexivity].
  split; [rewrite A2, B2; symmetry; now apply perm_unmarked|]. rewrite A3, B3.
  assert (E : filter (fun f => negb (touchesb (src e) f)) (edges g) = filter (fun f => negb (touchesb (dst e) f)) (edges g)); [|now rewrite E].
  apply filter_ext_in. intros f Hf. f_equal. destruct (touchesb (src e) f) eqn:X, (touchesb (dst e) f) eqn:Y; try reflexivity; exfalso.
  - assert (Q : In f (filter (touchesb (src e)) (edges g))) by (apply filter_In; auto). rewrite F1 in Q. destruct Q as [<-|[]]. congruence.
  - assert (Q : In f (filter (touchesb (dst e)) (edges g))) by (apply filter_In; auto). rewrite F2 in Q. destruct Q as [<-|[]]. congruence.
Qed.

Lemma upward_same : forall e f : edge, upward e = upward f -> f = e \/ f = turned e.
Proof.
  intros e f H. destruct (upward_or e) as [E|E], (upward_or f) as [K|K]; rewrite E, K in H; destruct e as [s1 d1 u1 l1], f as [s2 d2 u2 l2]; unfold turned in *; cbn [src dst edata elabel] in *;
  injection H as; subst; auto.
Qed.

Lemma alike_remove_edge : forall (g h g' h' : graph) i j e f cn ce cn' ce', alike g h -> valid g ->
  nth_error (edges g) i = Some e -> nth_error (edges h) j = Some f -> upward e = upward f ->
  remove_edge g i = Ok (g', (cn, ce)) -> remove_edge h j = Ok (h', (cn', ce')) -> alike g' h' /\ cn' = cn.
Proof.
  intros g h g' h' i j e f cn ce cn' ce' A V Hi Hj Up H H'. pose proof A as [N P].
  assert (V' : valid h) by (intros x Hx; rewrite N; exact (upward_ends _ _ _ P V x Hx)).
  rewrite (remove_edge_cases g i e V Hi) in H. rewrite (remove_edge_cases h j f V' Hj) in H'. rewrite !(alike_degree g h _ A) in H'.
  assert (K : forall k, remove_node g k = Ok (g', (cn, ce)) -> remove_node h k = Ok (h', (cn', ce')) -> alike g' h' /\ cn' = cn).
  { intros k H1 H2. destruct (alike_remove_node g h g' k cn ce A H1) as (h2 & c2 & E & Q). rewrite H2 in E. inv E. auto. }
  assert (B : src e <> dst e -> degree g (src e) = 1 -> degree g (dst e) = 1 ->
    remove_node g (src e) = Ok (g', (cn, ce)) -> remove_node h (dst e) = Ok (h', (cn', ce')) -> alike g' h' /\ cn' = cn).
  { intros Ne D1 D2 H1 H2. destruct (alike_remove_node h g h' (dst e) cn' ce' (alike_sym g h A) H2) as (g2 & c2 & E & Q).
    destruct (either_end g g' g2 e cn ce cn' c2 V (nth_error_In _ _ Hi) Ne D1 D2 H1 E) as [R1 R2]. split; [|exact R2].
    apply (alike_trans _ g2); [exact R1|]. now apply alike_sym. }
  assert (W : forall (es : list edge) k x l r, nth_error es k = Some x -> rev es = l :: r -> (S k =? List.length es) = false ->
    Permutation es (x :: swap_remove k (rev r) l)).
  { intros es k x l r Hk R C. apply Nat.eqb_neq in C. assert (L : k < List.length es) by (apply nth_error_Some; congruence).
    rewrite (swap_remove_perm es k l r R ltac:(lia)). exact (nth_perm _ es k x Hk). }
  assert (F : degree g (src e) <> 1 -> degree g (dst e) <> 1 -> forall b1 b2,
    (if b1 : bool then Panic else match rev (edges g) with [] => Panic | last :: r => Ok (MkGraph (nodes g) (swap_remove i (rev r) last), ([], [i; List.length (edges g) - 1])) end) = Ok (g', (cn, ce)) ->
    (if b2 : bool then Panic else match rev (edges h) with [] => Panic | last :: r => Ok (MkGraph (nodes h) (swap_remove j (rev r) last), ([], [j; List.length (edges h) - 1])) end) = Ok (h', (cn', ce')) ->
    b1 = (S i =? List.length (edges g)) -> b2 = (S j =? List.length (edges h)) -> alike g' h' /\ cn' = cn).
  { intros _ _ b1 b2 G1 G2 E1 E2. destruct b1; [discriminate|]. destruct b2; [discriminate|].
    destruct (rev (edges g)) as [|l r] eqn:R1; [discriminate|]. destruct (rev (edges h)) as [|l' r'] eqn:R2; [discriminate|].
    inv G1. inv G2. split; [|reflexivity]. split; cbn [nodes edges]; [exact N|].
    apply (Permutation_cons_inv (a := upward e)). rewrite Up at 2. change (Permutation (map upward (e :: swap_remove i (rev r) l)) (map upward (f :: swap_remove j (rev r') l'))).
    rewrite <- (W _ _ _ _ _ Hi R1 (eq_sym E1)), <- (W _ _ _ _ _ Hj R2 (eq_sym E2)). exact P. }
  destruct (upward_same e f Up) as [->| ->].
  - destruct (Nat.eqb_spec (degree g (src e)) 1); [exact (K _ H H')|]. destruct (Nat.eqb_spec (degree g (dst e)) 1); [exact (K _ H H')|].
    exact (F n n0 _ _ H H' eq_refl eq_refl).
  - cbn [turned src dst] in H'.
    destruct (Nat.eqb_spec (degree g (src e)) 1) as [D1|D1], (Nat.eqb_spec (degree g (dst e)) 1) as [D2|D2].
    + destruct (Nat.eq_dec (src e) (dst e)) as [Q|Q]; [rewrite <- Q in H'; exact (K _ H H')|exact (B Q D1 D2 H H')].
    + exact (K _ H H').
    + exact (K _ H H').
    + exact (F D1 D2 _ _ H H' eq_refl eq_refl).
Qed.
End Any.
