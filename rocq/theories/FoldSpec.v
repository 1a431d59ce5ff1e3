(** * What it means for a JSON document to describe a Fold (independent of serde). *)
From Coq Require Import ZArith List Bool String.
From Flocq Require Import IEEE754.BinarySingleNaN.
From Verif Require Import Scalar Fold.
Import ListNotations.
Local Open Scope string_scope.
Local Open Scope list_scope.

(** [reads t j v]: the JSON value [j] denotes the value [v] of type [t]. *)
Fixpoint reads (t : fty) (j : json) : denote t -> Prop :=
  match t return denote t -> Prop with
  | TI32 => fun v => j = JInt v /\ (- 2 ^ 31 <= v < 2 ^ 31)%Z
  | TF32 => fun v => j = JFloat v \/ exists z, j = JInt z /\ v = f32_Z z
  | TStr => fun v => j = JStr v
  | TVec t => fun v => exists l, j = JArr l /\ Forall2 (reads t) l v
  | TArr3 => fun v => let '(a, b, c) := v in j = JArr [JInt a; JInt b; JInt c] /\
      (- 2 ^ 31 <= a < 2 ^ 31)%Z /\ (- 2 ^ 31 <= b < 2 ^ 31)%Z /\ (- 2 ^ 31 <= c < 2 ^ 31)%Z
  end.

(** A Rust value of the type: i32 in range. *)
Fixpoint typed (t : fty) : denote t -> Prop :=
  match t return denote t -> Prop with
  | TI32 => fun v => (- 2 ^ 31 <= v < 2 ^ 31)%Z
  | TF32 => fun _ => True
  | TStr => fun _ => True
  | TVec t => fun v => Forall (typed t) v
  | TArr3 => fun v => let '(a, b, c) := v in
      (- 2 ^ 31 <= a < 2 ^ 31)%Z /\ (- 2 ^ 31 <= b < 2 ^ 31)%Z /\ (- 2 ^ 31 <= c < 2 ^ 31)%Z
  end.

(** Keys of the FOLD format, their types and the struct fields that hold them. *)
Record field := MkField { fname : string; ftype : fty; fget : Fold -> denote ftype }.
Definition fields : list field :=
  [MkField "file_spec" TI32 file_spec; MkField "file_creator" TStr file_creator;
   MkField "file_author" TStr file_author; MkField "file_title" TStr file_title;
   MkField "file_description" TStr file_description; MkField "file_classes" (TVec TStr) file_classes;
   MkField "frame_author" TStr frame_author; MkField "frame_title" TStr frame_title;
   MkField "frame_description" TStr frame_description; MkField "frame_classes" (TVec TStr) frame_classes;
   MkField "frame_attributes" (TVec TStr) frame_attributes; MkField "frame_unit" TStr frame_unit;
   MkField "vertices_coords" (TVec (TVec TF32)) vertices_coords;
   MkField "vertices_vertices" (TVec (TVec TI32)) vertices_vertices;
   MkField "vertices_faces" (TVec (TVec TI32)) vertices_faces;
   MkField "edges_vertices" (TVec (TVec TI32)) edges_vertices;
   MkField "edges_faces" (TVec (TVec TI32)) edges_faces;
   MkField "edges_assignment" (TVec TStr) edges_assignment;
   MkField "edges_foldAngles" (TVec TF32) edges_foldangles;
   MkField "edges_lengths" (TVec TF32) edges_lengths;
   MkField "faces_vertices" (TVec (TVec TI32)) faces_vertices;
   MkField "faces_edges" (TVec (TVec TI32)) faces_edges;
   MkField "faceOrders" (TVec TArr3) faceorders;
   MkField "edgeOrders" (TVec TArr3) edgeorders].

(** Every i32 of the struct is in range (true of every Rust value). *)
Definition fold_typed (f : Fold) : Prop := forall d, In d fields -> typed (ftype d) (fget d f).

Definition known (k : string) : Prop := In k (map fname fields).
(** No key of the format occurs twice. *)
Definition no_repeats (l : list (string * json)) : Prop :=
  forall l1 k v l2, l = l1 ++ (k, v) :: l2 -> known k -> ~ In k (map fst l2).
(** The value of field [d]: what the document says, or the default if it is silent. *)
Definition field_from (l : list (string * json)) (d : field) (v : denote (ftype d)) : Prop :=
  (~ In (fname d) (map fst l) /\ v = default (ftype d)) \/
  (exists j, In (fname d, j) l /\ reads (ftype d) j v).
