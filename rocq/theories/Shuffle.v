(** * The order of the edge slots (proofs for C157). *)
From Coq Require Import List Arith Bool Lia Permutation.
From Verif Require Import Scalar Utils Polygon Graph GraphSpec GraphAdd GraphRemove ShuffleSpec.
Import ListNotations.

Lemma perm_filter : forall A (f : A -> bool) l l', Permutation l l' -> Permutation (filter f l) (filter f l').
Proof.
  intros A f l l' H. induction H as [|x l l' H IH|x y l|l l' l'' H1 IH1 H2 IH2]; cbn [filter].
  - constructor.
  - destruct (f x); [now constructor|exact IH].
  - destruct (f x), (f y); try reflexivity. constructor.
  - now transitivity (filter f l').
Qed.

Lemma perm_min : forall l l' m, Permutation l l' -> list_min l = Some m -> list_min l' = Some m.
Proof.
  intros l l' m P H. destruct (list_min l') as [m'|] eqn:E.
  - apply list_min_spec in H, E. destruct H as [H1 H2], E as [E1 E2]. f_equal. apply Nat.le_antisymm.
    + apply E2. exact (Permutation_in _ P H1).
    + apply H2. exact (Permutation_in _ (Permutation_sym P) E1).
  - apply list_min_none in E. subst. apply Permutation_sym, Permutation_nil in P. subst. discriminate.
Qed.

Lemma perm_mem : forall l l' i, Permutation l l' -> mem i l = mem i l'.
Proof.
  intros l l' i P. destruct (mem i l') eqn:E.
  - apply mem_in in E. apply mem_in. exact (Permutation_in _ (Permutation_sym P) E).
  - apply mem_false. apply mem_false in E. intros H. exact (E (Permutation_in _ P H)).
Qed.

Lemma perm_remap : forall l l' idxs, Permutation l l' -> remap_loop l idxs = remap_loop l' idxs.
Proof.
  intros l l' idxs P. induction idxs as [|i idxs IH]; [reflexivity|]. cbn [remap_loop]. rewrite IH, (perm_mem l l' i P).
  now rewrite (Permutation_length (perm_filter _ (fun entry => entry <? i)%nat l l' P)).
Qed.

Lemma perm_unmarked : forall A l l' (x : list A) i, Permutation l l' -> filter_unmarked l i x = filter_unmarked l' i x.
Proof. intros A l l' x i P. revert i. induction x as [|y x IH]; intros i; [reflexivity|]. cbn [filter_unmarked]. now rewrite IH, (perm_mem l l' i P). Qed.

Section Any.
Context {O : Ops} {T U : Type}.
Local Notation graph := (PlanarGraph O T U).
Local Notation edge := (Edge U).

Lemma shuffle_between : forall (es es' : list edge) a b, Permutation es es' -> edge_between_loop es a b = edge_between_loop es' a b.
Proof.
  intros es es' a b P. induction P as [|x l l' P IH|x y l|l l' l'' P1 IH1 P2 IH2]; cbn [edge_between_loop]; [reflexivity|now rewrite IH| |congruence].
  destruct (Nat.eqb a (src x) && Nat.eqb b (dst x) || Nat.eqb b (src x) && Nat.eqb a (dst x)),
    (Nat.eqb a (src y) && Nat.eqb b (dst y) || Nat.eqb b (src y) && Nat.eqb a (dst y)); reflexivity.
Qed.

Lemma shuffle_incident : forall (g h : graph) i, shuffled g h -> number_of_edges_incident_to h i = number_of_edges_incident_to g i.
Proof.
  intros g h i [N P]. unfold number_of_edges_incident_to, get_vertex. rewrite N. destruct (nth_error (nodes g) i); [|reflexivity]. f_equal.
  apply Permutation_length, perm_filter. now apply Permutation_sym.
Qed.

Lemma split_flat : forall ns k (es : list edge),
  Permutation (map (fun e => if on_edge (O := O) (T := T) ns k e then half1 k e else e) es ++ map (half2 k) (filter (on_edge ns k) es))
    (flat_map (fun e => if on_edge ns k e then [half1 k e; half2 k e] else [e]) es).
Proof.
  intros ns k. induction es as [|e es IH]; [constructor|]. cbn [map filter flat_map]. destruct (on_edge ns k e); cbn [map app].
  - constructor. eapply Permutation_trans; [|constructor; exact IH]. apply Permutation_sym, Permutation_middle.
  - constructor. exact IH.
Qed.

Lemma shuffle_split : forall (g h g' : graph) id c, shuffled g h -> split_edges_at_node g id = Ok (g', c) ->
  exists h' c', split_edges_at_node h id = Ok (h', c') /\ shuffled g' h' /\ nodes g' = nodes g.
Proof.
  intros g h g' id c [N P] H. unfold split_edges_at_node in *. rewrite N. destruct (nth_error (nodes g) id) eqn:E; [|inv H; exists h, []; unfold shuffled; auto].
  apply bind_ok in H. destruct H as ([[rw ad] ch] & H & Q). inv Q. apply split_loop_ok in H. destruct H as (-> & -> & _ & _ & V).
  destruct (split_loop_total (nodes g) id (edges h) 0) as ([[rw' ad'] ch'] & H').
  - apply nth_error_Some. congruence.
  - intros e He. apply V. exact (Permutation_in _ (Permutation_sym P) He).
  - rewrite H'. cbn [bind]. apply split_loop_ok in H'. destruct H' as (-> & -> & _). eexists. eexists. split; [reflexivity|]. split; [|reflexivity].
    split; [reflexivity|]. cbn [edges nodes]. rewrite !split_flat. now apply Permutation_flat_map.
Qed.

Lemma shuffle_add_node : forall (g h g' : graph) p v i c, shuffled g h -> add_node g p v = Ok (g', (i, c)) ->
  exists h' c', add_node h p v = Ok (h', (i, c')) /\ shuffled g' h'.
Proof.
  intros g h g' p v i c S H. pose proof S as [N P]. unfold add_node in *. unfold gather_node_positions in *. rewrite N.
  destruct (find_closest_to p (map position (nodes g))) as [k dist]. destruct (olt dist ceps); [inv H; exists h, []; auto|].
  apply bind_ok in H. destruct H as ([g2 ch] & H & E). inv E.
  set (g1 := {| nodes := nodes g ++ [MkNode p v DEFAULT_LABEL]; edges := edges g |}) in *.
  set (h1 := {| nodes := nodes g ++ [MkNode p v DEFAULT_LABEL]; edges := edges h |}) in *.
  destruct (shuffle_split g1 h1 g' _ _ (conj eq_refl P) H) as (h' & c' & E1 & E2 & E3). change (node_count h1) with (node_count g1). rewrite E1. cbn [bind].
  exists h', c'. split; [|exact E2]. unfold node_count. now rewrite (proj1 E2).
Qed.

Lemma shuffle_strays : forall (g h : graph) id, shuffled g h -> Permutation (strays g id) (strays h id).
Proof.
  intros g h id [N P]. unfold strays, remove_edges_incident_to_node. rewrite !incident_loop_nodes, N.
  apply Permutation_map. rewrite (perm_filter _ _ _ _ P).
  assert (D : forall i, degree h i = degree g i).
  { intros i. unfold degree. rewrite <- !degree_filter. apply Permutation_length, perm_filter. now apply Permutation_sym. }
  match goal with |- Permutation (filter ?a _) (filter ?b _) => rewrite (filter_ext a b) end; [reflexivity|].
  intros e. cbv beta. now rewrite D.
Qed.

Lemma shuffle_degree : forall (g h : graph) i, shuffled g h -> degree h i = degree g i.
Proof. intros g h i [N P]. unfold degree. rewrite <- !degree_filter. apply Permutation_length, perm_filter. now apply Permutation_sym. Qed.

Lemma shuffle_remove_node : forall (g h g' : graph) id cn ce, shuffled g h -> remove_node g id = Ok (g', (cn, ce)) ->
  exists h' ce', remove_node h id = Ok (h', (cn, ce')) /\ shuffled g' h'.
Proof.
  intros g h g' id cn ce S H. pose proof S as [N P].
  destruct (Nat.lt_ge_cases id (List.length (nodes g))) as [L|L].
  - destruct (remove_node_ok g g' id cn ce L H) as (m & mn & me & H1 & H2 & H3 & H4 & H5 & H6 & H7).
    pose proof (shuffle_strays g h id S) as PS. assert (PS' : Permutation (id :: strays g id) (id :: strays h id)) by now constructor.
    unfold remove_node. rewrite N. destruct (nth_error (nodes g) id) eqn:E; [|apply nth_error_None in E; lia].
    rewrite (surjective_pairing (remove_edges_incident_to_node h id)). fold (strays h id). unfold node_count. rewrite N.
    rewrite (perm_remap _ _ _ PS') in H1. rewrite H1. cbn [bind]. rewrite (perm_min _ _ _ PS' H4).
    destruct (list_min (snd (remove_edges_incident_to_node h id))) as [me'|] eqn:M.
    + eexists. eexists. split; [rewrite H6; reflexivity|]. split; cbn [nodes edges].
      * rewrite H2. symmetry. now apply perm_unmarked.
      * rewrite H3, marked_edges_eq. apply Permutation_map, perm_filter. exact P.
    + exfalso. apply list_min_none, marked_edges_empty in M. rewrite (shuffle_degree g h id S) in M. apply marked_edges_empty in M. rewrite M in H5. discriminate.
  - rewrite remove_node_missing in H by exact L. inv H. rewrite remove_node_missing by (rewrite N; exact L). exists h, []. auto.
Qed.

Lemma nth_perm : forall A (l : list A) i x, nth_error l i = Some x -> Permutation l (x :: firstn i l ++ skipn (S i) l).
Proof.
  intros A. induction l as [|y l IH]; intros [|i] x H; try discriminate; cbn in *.
  - now inv H.
  - rewrite (IH i x H) at 1. apply perm_swap.
Qed.

Lemma shuffle_remove_edge : forall (g h g' h' : graph) i j e cn ce cn' ce', shuffled g h -> valid g ->
  nth_error (edges g) i = Some e -> nth_error (edges h) j = Some e ->
  remove_edge g i = Ok (g', (cn, ce)) -> remove_edge h j = Ok (h', (cn', ce')) -> shuffled g' h' /\ cn' = cn.
Proof.
  intros g h g' h' i j e cn ce cn' ce' Sh V Hi Hj H H'. pose proof Sh as [N P].
  assert (V' : valid h) by (intros f Hf; rewrite N; apply V; exact (Permutation_in _ (Permutation_sym P) Hf)).
  rewrite (remove_edge_cases g i e V Hi) in H. rewrite (remove_edge_cases h j e V' Hj) in H'. rewrite !(shuffle_degree g h _ Sh) in H'.
  assert (K : forall k, remove_node g k = Ok (g', (cn, ce)) -> remove_node h k = Ok (h', (cn', ce')) -> shuffled g' h' /\ cn' = cn).
  { intros k H1 H2. destruct (shuffle_remove_node g h g' k cn ce Sh H1) as (h2 & c2 & E & Q). rewrite H2 in E. inv E. auto. }
  destruct (degree g (src e) =? 1); [exact (K _ H H')|]. destruct (degree g (dst e) =? 1); [exact (K _ H H')|]. clear K.
  assert (W : forall es k l r, nth_error es k = Some e -> rev es = l :: r -> (S k =? List.length es) = false ->
    Permutation es (e :: swap_remove k (rev r) l)).
  { intros es k l r Hk R B. apply Nat.eqb_neq in B. assert (L : k < List.length es) by (apply nth_error_Some; congruence).
    rewrite (swap_remove_perm es k l r R ltac:(lia)). exact (nth_perm _ es k e Hk). }
  destruct (S i =? List.length (edges g)) eqn:B1; [discriminate|]. destruct (S j =? List.length (edges h)) eqn:B2; [discriminate|].
  destruct (rev (edges g)) as [|l r] eqn:R1; [discriminate|]. destruct (rev (edges h)) as [|l' r'] eqn:R2; [discriminate|].
  inv H. inv H'. split; [|reflexivity]. split; cbn [nodes edges]; [exact N|].
  apply (Permutation_cons_inv (a := e)). rewrite <- (W _ _ _ _ Hi R1 B1), <- (W _ _ _ _ Hj R2 B2). exact P.
Qed.
End Any.
