(** * Model of src/fold/fold.rs: what serde's derive generates for [Fold], at the level
    of JSON values (serde_json's text lexer and printer are not modelled).

    Simplifications: a JSON number is either an integer literal or a literal with a
    fraction/exponent, the latter carried as the f32 it reads as; integer literals read
    into f32 fields are rounded once (serde_json goes through f64 for literals outside
    i64/u64).  Error messages are dropped: a failed deserialisation is [None]. *)
From Coq Require Import ZArith List Bool String.
From Flocq Require Import IEEE754.BinarySingleNaN.
From Verif Require Import Scalar.
Import ListNotations.
Local Open Scope string_scope.

Inductive json :=
| JNull
| JBool (b : bool)
| JInt (z : Z)
| JFloat (x : f32)
| JStr (s : string)
| JArr (l : list json)
| JObj (l : list (string * json)).

(** The Rust types of the fields; i32 is Z with the range checked on input. *)
Inductive fty := TI32 | TF32 | TStr | TVec (t : fty) | TArr3 (* [i32; 3] *).
Fixpoint denote (t : fty) : Type :=
  match t with
  | TI32 => Z
  | TF32 => f32
  | TStr => string
  | TVec t => list (denote t)
  | TArr3 => Z * Z * Z
  end.

Definition i32_min : Z := (- 2 ^ 31)%Z.
Definition i32_max : Z := (2 ^ 31 - 1)%Z.
Definition in_i32 (z : Z) : bool := ((i32_min <=? z) && (z <=? i32_max))%Z.

(** Default::default() *)
Definition default (t : fty) : denote t :=
  match t return denote t with
  | TI32 => 0%Z
  | TF32 => f32_Z 0
  | TStr => ""
  | TVec _ => []
  | TArr3 => (0, 0, 0)%Z
  end.

(** serde_json's Serializer: a non-finite f32 is written as null. *)
Fixpoint ser (t : fty) : denote t -> json :=
  match t return denote t -> json with
  | TI32 => fun z => JInt z
  | TF32 => fun x => if is_finite x then JFloat x else JNull
  | TStr => fun s => JStr s
  | TVec t => fun l => JArr (map (ser t) l)
  | TArr3 => fun '(a, b, c) => JArr [JInt a; JInt b; JInt c]
  end.

Definition de_i32 (j : json) : option Z :=
  match j with JInt z => if in_i32 z then Some z else None | _ => None end.

Fixpoint all_some {A B} (f : A -> option B) (l : list A) : option (list B) :=
  match l with
  | [] => Some []
  | x :: l' =>
      match f x, all_some f l' with
      | Some y, Some ys => Some (y :: ys)
      | _, _ => None
      end
  end.

(** serde's Deserialize impls for the field types, on serde_json values. *)
Fixpoint de (t : fty) (j : json) : option (denote t) :=
  match t return option (denote t) with
  | TI32 => de_i32 j
  | TF32 => match j with
            | JFloat x => Some x
            | JInt z => Some (f32_Z z)
            | _ => None
            end
  | TStr => match j with JStr s => Some s | _ => None end
  | TVec t => match j with JArr l => all_some (de t) l | _ => None end
  | TArr3 => match j with
             | JArr [a; b; c] =>
                 match de_i32 a, de_i32 b, de_i32 c with
                 | Some a, Some b, Some c => Some (a, b, c)
                 | _, _, _ => None
                 end
             | _ => None
             end
  end.

(** fold.rs:9-120 *)
Record Fold := MkFold {
  file_spec : denote TI32;
  file_creator : denote TStr;
  file_author : denote TStr;
  file_title : denote TStr;
  file_description : denote TStr;
  file_classes : denote (TVec TStr);
  file_frames : denote TStr;
  frame_author : denote TStr;
  frame_title : denote TStr;
  frame_description : denote TStr;
  frame_classes : denote (TVec TStr);
  frame_attributes : denote (TVec TStr);
  frame_unit : denote TStr;
  vertices_coords : denote (TVec (TVec TF32));
  vertices_vertices : denote (TVec (TVec TI32));
  vertices_faces : denote (TVec (TVec TI32));
  edges_vertices : denote (TVec (TVec TI32));
  edges_faces : denote (TVec (TVec TI32));
  edges_assignment : denote (TVec TStr);
  edges_foldangles : denote (TVec TF32);
  edges_lengths : denote (TVec TF32);
  faces_vertices : denote (TVec (TVec TI32));
  faces_edges : denote (TVec (TVec TI32));
  faceorders : denote (TVec TArr3);
  edgeorders : denote (TVec TArr3)
}.

(** The names the derived Deserialize knows (fold.rs:94,114,118: renamed for
    deserialisation only; fold.rs:36: file_frames is skipped), in declaration order. *)
Definition de_names : list string :=
  ["file_spec"; "file_creator"; "file_author"; "file_title"; "file_description";
   "file_classes"; "frame_author"; "frame_title"; "frame_description"; "frame_classes";
   "frame_attributes"; "frame_unit"; "vertices_coords"; "vertices_vertices";
   "vertices_faces"; "edges_vertices"; "edges_faces"; "edges_assignment";
   "edges_foldAngles"; "edges_lengths"; "faces_vertices"; "faces_edges";
   "faceOrders"; "edgeOrders"].

(** The derived Serialize (fold.rs:8): a map in declaration order, Rust field names. *)
Definition serialize (f : Fold) : json := JObj
  [("file_spec", ser TI32 (file_spec f));
   ("file_creator", ser TStr (file_creator f));
   ("file_author", ser TStr (file_author f));
   ("file_title", ser TStr (file_title f));
   ("file_description", ser TStr (file_description f));
   ("file_classes", ser (TVec TStr) (file_classes f));
   ("frame_author", ser TStr (frame_author f));
   ("frame_title", ser TStr (frame_title f));
   ("frame_description", ser TStr (frame_description f));
   ("frame_classes", ser (TVec TStr) (frame_classes f));
   ("frame_attributes", ser (TVec TStr) (frame_attributes f));
   ("frame_unit", ser TStr (frame_unit f));
   ("vertices_coords", ser (TVec (TVec TF32)) (vertices_coords f));
   ("vertices_vertices", ser (TVec (TVec TI32)) (vertices_vertices f));
   ("vertices_faces", ser (TVec (TVec TI32)) (vertices_faces f));
   ("edges_vertices", ser (TVec (TVec TI32)) (edges_vertices f));
   ("edges_faces", ser (TVec (TVec TI32)) (edges_faces f));
   ("edges_assignment", ser (TVec TStr) (edges_assignment f));
   ("edges_foldangles", ser (TVec TF32) (edges_foldangles f));
   ("edges_lengths", ser (TVec TF32) (edges_lengths f));
   ("faces_vertices", ser (TVec (TVec TI32)) (faces_vertices f));
   ("faces_edges", ser (TVec (TVec TI32)) (faces_edges f));
   ("faceorders", ser (TVec TArr3) (faceorders f));
   ("edgeorders", ser (TVec TArr3) (edgeorders f))].

Definition obind {A B} (m : option A) (k : A -> option B) : option B :=
  match m with Some a => k a | None => None end.
Notation "'let?' x := m 'in' k" := (obind m (fun x => k))
  (at level 200, x name, m at level 100, k at level 200).

(** The first value stored under a key *)
Fixpoint lookup (k : string) (l : list (string * json)) : option json :=
  match l with
  | [] => None
  | (k', v) :: l' => if String.eqb k k' then Some v else lookup k l'
  end.

Definition count_key (k : string) (l : list (string * json)) : nat :=
  List.length (filter (fun kv => String.eqb k (fst kv)) l).

(** #[serde(default)]: a missing field takes its default, a present one must parse. *)
Definition de_field (t : fty) (o : option json) : option (denote t) :=
  match o with Some j => de t j | None => Some (default t) end.

(** The body shared by visit_map and visit_seq; [get i name] is the value of field i. *)
Definition build (get : nat -> string -> option json) : option Fold :=
  let fld i t := de_field t (get i (nth i de_names "")) in
  let? v0 := fld 0 TI32 in
  let? v1 := fld 1 TStr in
  let? v2 := fld 2 TStr in
  let? v3 := fld 3 TStr in
  let? v4 := fld 4 TStr in
  let? v5 := fld 5 (TVec TStr) in
  let? v6 := fld 6 TStr in
  let? v7 := fld 7 TStr in
  let? v8 := fld 8 TStr in
  let? v9 := fld 9 (TVec TStr) in
  let? v10 := fld 10 (TVec TStr) in
  let? v11 := fld 11 TStr in
  let? v12 := fld 12 (TVec (TVec TF32)) in
  let? v13 := fld 13 (TVec (TVec TI32)) in
  let? v14 := fld 14 (TVec (TVec TI32)) in
  let? v15 := fld 15 (TVec (TVec TI32)) in
  let? v16 := fld 16 (TVec (TVec TI32)) in
  let? v17 := fld 17 (TVec TStr) in
  let? v18 := fld 18 (TVec TF32) in
  let? v19 := fld 19 (TVec TF32) in
  let? v20 := fld 20 (TVec (TVec TI32)) in
  let? v21 := fld 21 (TVec (TVec TI32)) in
  let? v22 := fld 22 (TVec TArr3) in
  let? v23 := fld 23 (TVec TArr3) in
  Some (MkFold v0 v1 v2 v3 v4 v5 (default TStr) v6 v7 v8 v9 v10 v11 v12 v13 v14 v15 v16
          v17 v18 v19 v20 v21 v22 v23).

(** The derived Deserialize (fold.rs:8): from a map (a repeated known key is an error,
    unknown keys are skipped) or from an array (fields in order, missing ones default,
    surplus elements are an error). *)
Definition deserialize (j : json) : option Fold :=
  match j with
  | JObj l =>
      if existsb (fun k => Nat.ltb 1 (count_key k l)) de_names then None
      else build (fun _ k => lookup k l)
  | JArr l =>
      if Nat.ltb (List.length de_names) (List.length l) then None
      else build (fun i _ => nth_error l i)
  | _ => None
  end.

(** fold.rs:137-139 resolve *)
Definition resolve (f : Fold) : Fold := f.
(** fold.rs:141-144 validate *)
Definition validate (f : Fold) : bool := true.

(** What the file system and the JSON lexer hand to from_file: opening or reading
    failed, the text is not JSON, or a JSON value. *)
Inductive file_contents := IoError | NotJson | Json (j : json).
(** The std::io::Result returned by from_file *)
Inductive io_result := IoOk (f : Fold) | IoErr.

(** fold.rs:125-135 from_file *)
Definition from_file (c : file_contents) : res io_result :=
  match c with
  | IoError => Ok IoErr
  | NotJson => Panic
  | Json j =>
      match deserialize j with
      | None => Panic
      | Some fold =>
          let fold := resolve fold in
          let _ := validate fold in
          Ok (IoOk fold)
      end
  end.
