(** * C53-C55, C71-C73: src/fold/fold.rs.

    [reads t j v], [fields], [field_from], [no_repeats], [known] and [typed] are the
    specification of FoldSpec.v. *)
From Coq Require Import ZArith List Bool String Lia Permutation.
From Flocq Require Import IEEE754.BinarySingleNaN.
From Verif Require Import Scalar Fold FoldSpec FoldProofs.
Import ListNotations.
Local Open Scope string_scope.
Local Open Scope list_scope.

(** A document used by the examples: a unit square with its edges and one layer order. *)
Definition square_doc : list (string * json) :=
  [("file_spec", JInt 1); ("file_creator", JStr "kami"); ("vendor:extra", JNull);
   ("vertices_coords", JArr [JArr [JInt 0; JInt 0]; JArr [JInt 1; JInt 0]; JArr [JInt 1; JInt 1]; JArr [JInt 0; JInt 1]]);
   ("edges_vertices", JArr [JArr [JInt 0; JInt 1]; JArr [JInt 1; JInt 2]; JArr [JInt 2; JInt 3]; JArr [JInt 3; JInt 0]]);
   ("edges_assignment", JArr [JStr "B"; JStr "B"; JStr "B"; JStr "B"]);
   ("faceOrders", JArr [JArr [JInt 0; JInt 1; JInt (-1)]])].
Definition square : Fold :=
  MkFold 1%Z "kami" "" "" "" [] "" "" "" "" [] [] ""
    [[f32_Z 0; f32_Z 0]; [f32_Z 1; f32_Z 0]; [f32_Z 1; f32_Z 1]; [f32_Z 0; f32_Z 1]] [] []
    [[0; 1]; [1; 2]; [2; 3]; [3; 0]]%Z [] ["B"; "B"; "B"; "B"] [] [] [] [] [(0, 1, -1)%Z] [].
Example square_loads : from_file (Json (JObj square_doc)) = Ok (IoOk square).
Proof. reflexivity. Qed.
Lemma square_typed : fold_typed square.
Proof.
  intros d I. unfold fields in I.
  repeat (destruct I as [<-|I]; [cbn [ftype fget square typed]; cbn; repeat constructor; lia|]). destruct I.
Qed.

(** ** C53 *)

(** Keys are renamed on loading only, so layer orders (and fold angles) do not survive. *)
Theorem C53_round_trip_refuted :
  ~ (forall f, fold_typed f -> deserialize (serialize f) = Some f).
Proof. intros H. specialize (H square square_typed). discriminate H. Qed.
Print Assumptions C53_round_trip_refuted.

(** ** C71: what a save followed by a load gives *)
Theorem C71_save_load :
  forall f, fold_typed f ->
  let finite := Forall (Forall (fun x : f32 => is_finite x = true)) (vertices_coords f) /\
                Forall (fun x : f32 => is_finite x = true) (edges_lengths f) in
  (forall g, deserialize (serialize f) = Some g <->
     finite /\
     file_frames g = "" /\ edges_foldangles g = [] /\ faceorders g = [] /\ edgeorders g = [] /\
     forall d, In d fields -> ~ In (fname d) ["edges_foldAngles"; "faceOrders"; "edgeOrders"] -> fget d g = fget d f) /\
  (deserialize (serialize f) = Some f <->
     finite /\ file_frames f = "" /\ edges_foldangles f = [] /\ faceorders f = [] /\ edgeorders f = []) /\
  (finite -> exists g, deserialize (serialize f) = Some g /\ deserialize (serialize g) = Some g) /\
  (~ finite -> from_file (Json (serialize f)) = Panic).
Proof. exact save_load. Qed.
Print Assumptions C71_save_load.

(** Whatever was loaded holds i32 values in range. *)
Theorem C71_loaded_is_typed :
  forall j f, deserialize j = Some f -> fold_typed f /\ file_frames f = "".
Proof. exact loaded_typed. Qed.
Print Assumptions C71_loaded_is_typed.

Example C71_example :
  fold_typed square /\ faceorders square <> [] /\
  exists g, deserialize (serialize square) = Some g /\ faceorders g = [] /\ vertices_coords g = vertices_coords square.
Proof. split; [exact square_typed|]. split; [discriminate|]. eexists. split; [reflexivity|split; reflexivity]. Qed.

(** ** C54 *)

(** Loading an object: missing fields take their default, present ones are read. *)
Theorem C54_document :
  forall l f, from_file (Json (JObj l)) = Ok (IoOk f) <->
  no_repeats l /\ (forall d, In d fields -> field_from l d (fget d f)) /\ file_frames f = "".
Proof. exact from_file_obj. Qed.
Print Assumptions C54_document.

Theorem C54_empty_document :
  exists f, from_file (Json (JObj [])) = Ok (IoOk f) /\ forall d, In d fields -> fget d f = default (ftype d).
Proof.
  eexists. split; [reflexivity|]. intros d I. unfold fields in I.
  repeat (destruct I as [<-|I]; [reflexivity|]). destruct I.
Qed.
Print Assumptions C54_empty_document.

Theorem C54_unknown_ignored :
  forall l m k v, ~ known k ->
  from_file (Json (JObj (l ++ (k, v) :: m))) = from_file (Json (JObj (l ++ m))).
Proof. intros l m k v U. unfold from_file. now rewrite deserialize_unknown. Qed.
Print Assumptions C54_unknown_ignored.

Theorem C54_order_irrelevant :
  forall l m, Permutation l m -> from_file (Json (JObj l)) = from_file (Json (JObj m)).
Proof. intros l m P. unfold from_file. now rewrite (deserialize_perm l m P). Qed.
Print Assumptions C54_order_irrelevant.

Theorem C54_malformed_panics :
  forall l d j, In d fields -> In (fname d, j) l -> (forall v, ~ reads (ftype d) j v) ->
  from_file (Json (JObj l)) = Panic.
Proof. exact malformed_panics. Qed.
Print Assumptions C54_malformed_panics.

Theorem C54_err_iff_unreadable :
  forall c, (from_file c = Ok IoErr <-> c = IoError) /\ from_file NotJson = Panic.
Proof. exact err_iff. Qed.
Print Assumptions C54_err_iff_unreadable.

Example C54_example :
  ~ known "vendor:extra" /\ In ("vendor:extra", JNull) square_doc /\ no_repeats square_doc /\
  from_file (Json (JObj (rev square_doc))) = Ok (IoOk square) /\
  from_file (Json (JObj (("edges_lengths", JArr [JNull]) :: square_doc))) = Panic.
Proof.
  split; [unfold known; cbn; intuition discriminate|]. split; [cbn; tauto|].
  split; [now apply no_repeats_iff|]. split; reflexivity.
Qed.

(** ** C72: exactly which documents load *)
Theorem C72_loads_iff :
  forall c, (exists f, from_file c = Ok (IoOk f)) <->
  (exists l, c = Json (JObj l) /\ no_repeats l /\
     forall d j, In d fields -> In (fname d, j) l -> exists v, reads (ftype d) j v) \/
  (exists l, c = Json (JArr l) /\ (List.length l <= List.length fields)%nat /\
     forall i d j, nth_error fields i = Some d -> nth_error l i = Some j -> exists v, reads (ftype d) j v).
Proof. exact loads_iff. Qed.
Print Assumptions C72_loads_iff.

Theorem C72_otherwise_panics :
  forall c, c = IoError \/ (exists f, from_file c = Ok (IoOk f)) \/ from_file c = Panic.
Proof. intros [| |j]; [now left|now right; right|]. cbn [from_file]. destruct (deserialize j); [right; left; eexists; reflexivity|tauto]. Qed.
Print Assumptions C72_otherwise_panics.

(** [reads] is a partial function of the JSON value. *)
Theorem C72_reads_functional :
  forall t j v w, reads t j v -> reads t j w -> v = w.
Proof. intros t j v w H K. apply de_reads in H, K. congruence. Qed.
Print Assumptions C72_reads_functional.

Example C72_example :
  (exists f, from_file (Json (JArr [JInt 1; JStr "kami"])) = Ok (IoOk f) /\ file_creator f = "kami") /\
  from_file (Json (JObj [("file_spec", JInt 1); ("file_spec", JInt 1)])) = Panic /\
  from_file (Json (JStr "x")) = Panic.
Proof. split; [eexists; split; reflexivity|split; reflexivity]. Qed.

(** ** C73: values that make loading panic *)

(** A FOLD version that is not an integer literal, such as 1.1. *)
Theorem C73_fractional_spec_panics :
  forall l x, In ("file_spec", JFloat x) l -> from_file (Json (JObj l)) = Panic.
Proof.
  intros l x I. apply (C54_malformed_panics l (MkField "file_spec" TI32 file_spec) (JFloat x));
    [unfold fields; cbn [In]; tauto|exact I|intros v [H _]; discriminate].
Qed.
Print Assumptions C73_fractional_spec_panics.

(** null in place of any known field; an edge length or coordinate null (how a
    non-finite float is saved). *)
Theorem C73_null_panics :
  forall l d, In d fields -> In (fname d, JNull) l -> from_file (Json (JObj l)) = Panic.
Proof.
  intros l d I H. apply (C54_malformed_panics l d JNull I H). clear. destruct (ftype d); intros v; cbn [reads denote] in *.
  - intros [K _]. discriminate.
  - intros [K|(z & K & _)]; discriminate.
  - discriminate.
  - intros (m & K & _). discriminate.
  - destruct v as [[a b] c]. intros [K _]. discriminate.
Qed.
Print Assumptions C73_null_panics.

(** An id outside i32. *)
Theorem C73_id_range :
  forall l d a b c e z, In d fields -> ftype d = TVec (TVec TI32) -> In (fname d, JArr (a ++ JArr (b ++ JInt z :: c) :: e)) l ->
  (z < - 2 ^ 31 \/ 2 ^ 31 <= z)%Z -> from_file (Json (JObj l)) = Panic.
Proof. exact id_range. Qed.
Print Assumptions C73_id_range.

Example C73_example :
  from_file (Json (JObj [("file_spec", JFloat (f32_of 11 (-3)))])) = Panic /\
  from_file (Json (JObj [("edges_vertices", JArr [JArr [JInt 0; JInt 2147483648]])])) = Panic /\
  exists f, from_file (Json (JObj [("edges_vertices", JArr [JArr [JInt 0; JInt 2147483647]])])) = Ok (IoOk f).
Proof. split; [reflexivity|]. split; [reflexivity|]. eexists. reflexivity. Qed.

(** ** C55 *)
Theorem C55_resolve_unchanged : forall f, resolve f = f.
Proof. reflexivity. Qed.
Print Assumptions C55_resolve_unchanged.

(** The parallel vertex arrays have equal or zero length (fold.rs:142). *)
Definition lengths_agree (f : Fold) : Prop :=
  let ok (a b : nat) := a = b \/ a = 0%nat \/ b = 0%nat in
  ok (List.length (vertices_coords f)) (List.length (vertices_vertices f)) /\
  ok (List.length (vertices_coords f)) (List.length (vertices_faces f)) /\
  ok (List.length (vertices_vertices f)) (List.length (vertices_faces f)).

Theorem C55_validate_refuted : ~ (forall f, fold_typed f -> (validate f = true <-> lengths_agree f)).
Proof.
  intros H.
  pose (f := MkFold 1%Z "" "" "" "" [] "" "" "" "" [] [] "" [[f32_Z 0]] [[0%Z]; [0%Z]] [] [] [] [] [] [] [] [] [] []).
  assert (T : fold_typed f).
  { intros d I. unfold fields in I.
    repeat (destruct I as [<-|I]; [cbn [ftype fget typed]; cbn; repeat constructor; lia|]). destruct I. }
  destruct (proj1 (H f T) eq_refl) as [[E|[E|E]] _]; discriminate.
Qed.
Print Assumptions C55_validate_refuted.

(** What holds: it accepts everything. *)
Theorem C55_validate_accepts_all : forall f, validate f = true.
Proof. reflexivity. Qed.
Print Assumptions C55_validate_accepts_all.

Example C55_example : lengths_agree square /\ validate square = true /\ resolve square = square.
Proof. split; [|split; reflexivity]. repeat split; cbn; auto. Qed.
