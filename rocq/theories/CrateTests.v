(** * The crate's own unit tests, run in the model.

    The [#[test]]s of /repo/src, evaluated by [vm_compute] on the model, with approx's default
    tolerances (epsilon = EPSILON, 4 ulps) unless the test names others.  They guard the
    transcription; they are not claims, and the crate itself was not run.  The tests of
    src/math run in f64 unless they mention f32 (float literals default to f64).
    Not the same as in the crate: [vector_angle] compares the arguments of acos, not the
    angles; [bivector_norm] squares by a product where the test calls powf(2.0);
    [rotor_rotate] is given the correctly rounded sin and cos of its one angle.  Tests that
    assert nothing (rotor norm, graph simple, the end of polygon simple) and the two
    example programs are evaluated, with the outcome worked out by hand from the source. *)
From Coq Require Import List ZArith Bool.
From Flocq Require Import Core.Core IEEE754.BinarySingleNaN.
From Verif Require Import Scalar GA Approx Line Utils Polygon Graph GraphSpec GraphDemo Format.
Import ListNotations.

(** ** approx 0.3.2 in any format *)
Section Ulps.
Context (f : Fmt).
Local Notation prec := (prec f). Local Notation emax := (emax f).
(** The bit pattern without the sign bit; only compared between equal signs. *)
Definition fl_bits (x : fl f) : Z :=
    match x with
    | B754_zero _ => 0
    | B754_infinity _ => (2 * emax - 1) * 2 ^ (prec - 1)
    | B754_nan => (2 * emax - 1) * 2 ^ (prec - 1) + 1
    | B754_finite _ m e _ =>
        if Zpos m <? 2 ^ (prec - 1) then Zpos m
        else (e + emax + prec - 2) * 2 ^ (prec - 1) + (Zpos m - 2 ^ (prec - 1))
    end%Z.
(** As [f32_ulps_eq] of Approx.v: a NaN has a NaN signum, equal to nothing. *)
Definition fl_ulps (max : Z) (x y : BO f) : bool :=
  if Bleb (Babs (Bminus mode_NE x y)) (f_eps f) then true
  else if is_nan x || is_nan y || negb (Bool.eqb (Bsign x) (Bsign y)) then false
  else (Z.abs (fl_bits x - fl_bits y) <=? max)%Z.
Definition vec_ulps max (u v : Vector3 (BO f)) := fl_ulps max (a1 u) (a1 v) && fl_ulps max (a2 u) (a2 v) && fl_ulps max (a3 u) (a3 v).
Definition biv_ulps max (u v : Bivector3 (BO f)) := fl_ulps max (b1 u) (b1 v) && fl_ulps max (b2 u) (b2 v) && fl_ulps max (b3 u) (b3 v).
Definition tri_ulps max (u v : Trivector3 (BO f)) := fl_ulps max (t1 u) (t1 v).
Definition rot_ulps max (u v : Rotor3 (BO f)) := fl_ulps max (scalar u) (scalar v) && biv_ulps max (bivector u) (bivector v).
Definition n (m : Z) : BO f := fl_of f m 0.
Definition v3 (x y z : Z) : Vector3 (BO f) := V3 (n x) (n y) (n z).
Definition bv3 (x y z : Z) : Bivector3 (BO f) := B3 (n x) (n y) (n z).
End Ulps.
Example nan_is_not_close : fl_ulps (double (MkLibm64 (fun x => x) (fun x => x) (fun x => x))) 4 B754_nan B754_nan = false.
Proof. vm_compute. reflexivity. Qed.

(** The platform's sin and cos return the correctly rounded values where a test needs
    them: sin(pi/8) and cos(pi/8) in f32. *)
Definition lm_test : Libm := mkLibm (fun _ => f32_of 12840726 (-25)) (fun _ => f32_of 15500126 (-24)) (fun x => x).
Definition lm_test64 : Libm64 := MkLibm64 (fun x => x) (fun x => x) (fun x => x).
Notation D := (double lm_test64).
Notation S := (single lm_test).
Local Open Scope Z_scope.
Local Notation "x ~ y" := (fl_ulps D 4 x y = true) (at level 70).

(** ** src/math/vector.rs:395-548 *)
Definition u := v3 D 0 1 2.
Definition v := v3 D 3 4 5.

Example vector_dot :
  let rotor := rot_scale (rot_add (vec_mul u v) (vec_mul v u)) (chalf (o := BO D)) in
  vec_dot u v ~ n D 14 /\ vec_dot u v ~ scalar rotor /\ biv_ulps D 4 (bivector rotor) biv_zero = true.
Proof. vm_compute. auto. Qed.

Example vector_wedge :
  biv_ulps D 4 (vec_wedge u u) biv_zero = true /\
  biv_ulps D 4 (vec_wedge (v3 D 1 0 0) (v3 D 0 1 0)) (bv3 D 1 0 0) = true /\
  biv_ulps D 4 (vec_wedge (v3 D 0 1 0) (v3 D 1 0 0)) (bv3 D (-1) 0 0) = true /\
  let rotor := rot_scale (rot_sub (vec_mul u v) (vec_mul v u)) (chalf (o := BO D)) in
  n D 0 ~ scalar rotor /\ biv_ulps D 4 (vec_wedge u v) (bivector rotor) = true.
Proof. vm_compute. auto. Qed.

Example vector_inverse :
  let w := v3 D 1 2 3 in let res := vec_mul (vec_inverse w) w in
  scalar res ~ n D 1 /\ biv_ulps D 4 (bivector res) biv_zero = true.
Proof. vm_compute. auto. Qed.

(** The arguments of the two acos, as acos is a parameter of the model ([lm_test64] makes it
    the identity): one ulp apart at most, or within epsilon. *)
Example vector_angle :
  fl_ulps D 1 (vec_angle u v) (odiv (o := BO D) (omul (o := BO D) (n D 7) (osqrt (o := BO D) (n D 10))) (n D 25)) = true.
Proof. vm_compute. reflexivity. Qed.

Example vector_project : vec_ulps D 4 (vec_project (v3 D 1 1 0) (v3 D 2 0 0)) (v3 D 1 0 0) = true.
Proof. vm_compute. reflexivity. Qed.

Example vector_reflect :
  let q x y : BO D := odiv (o := BO D) (n D x) (n D y) in
  let w := vec_normalize v in
  vec_ulps D 6 (vec_reflect u v) (vec_sub (vec_scale w (omul (o := BO D) (n D 2) (vec_dot u w))) u) = true /\
  vec_ulps D 4 (vec_reflect u v) (V3 (q 42 25) (q 31 25) (q 4 5)) = true.
Proof. vm_compute. auto. Qed.

Example vector_add : vec_ulps D 4 (vec_add u v) (v3 D 3 5 7) = true.
Proof. vm_compute. reflexivity. Qed.
Example vector_sub : vec_ulps D 4 (vec_sub u v) (v3 D (-3) (-3) (-3)) = true.
Proof. vm_compute. reflexivity. Qed.

(** ** src/math/bivector.rs:354-467 *)
Example bivector_dot :
  fl_ulps S 4 (biv_dot (biv_unit_xy (O := BO S)) biv_unit_xz) (n S 0) = true /\
  fl_ulps S 4 (biv_dot (biv_unit_xy (O := BO S)) biv_unit_xy) (n S (-1)) = true.
Proof. vm_compute. auto. Qed.

Example bivector_norm :
  fl_ulps S 4 (biv_norm (biv_unit_xy (O := BO S))) (n S 1) = true /\
  fl_ulps S 4 (biv_norm (biv_unit_xz (O := BO S))) (n S 1) = true /\
  fl_ulps S 4 (biv_norm (biv_unit_yz (O := BO S))) (n S 1) = true /\
  let norm := biv_norm_squared (vec_wedge u v) in let d := vec_dot u v in
  norm ~ osub (o := BO D) (omul (o := BO D) (vec_norm_squared u) (vec_norm_squared v)) (omul (o := BO D) d d) /\
  norm ~ biv_dot (vec_wedge v u) (vec_wedge u v) /\
  norm ~ scalar (biv_mul (vec_wedge v u) (vec_wedge u v)).
Proof. vm_compute. repeat split; reflexivity. Qed.

Example bivector_normalize :
  biv_norm (biv_normalize (vec_wedge u v)) ~ n D 1 /\ biv_norm (biv_normalize (vec_wedge v u)) ~ n D 1.
Proof. vm_compute. auto. Qed.

Example bivector_inverse :
  let b := vec_wedge u v in let r0 := biv_mul (biv_inverse b) b in let r1 := biv_mul b (biv_inverse b) in
  scalar r0 ~ n D 1 /\ biv_ulps D 4 (bivector r0) biv_zero = true /\
  scalar r1 ~ n D 1 /\ biv_ulps D 4 (bivector r1) biv_zero = true.
Proof. vm_compute. repeat split; reflexivity. Qed.

Example bivector_geometric_product :
  let r0 := vec_wedge u v in let r1 := vec_wedge (v3 D 6 7 8) (v3 D 9 10 11) in
  rot_ulps D 4 (biv_mul r0 r1) (Ro3 (biv_dot r0 r1) (biv_wedge r0 r1)) = true.
Proof. vm_compute. reflexivity. Qed.

(** ** src/math/trivector.rs:270-324 *)
Example trivector_norm :
  tri_norm (biv_wedge_vec (vec_wedge (v3 D 1 0 0) (v3 D 0 2 0)) (v3 D 0 0 3)) ~ n D 6.
Proof. vm_compute. reflexivity. Qed.
Example trivector_normalize :
  tri_ulps D 4 (tri_normalize (T3 (n D 10))) tri_unit_xyz = true /\
  tri_ulps D 4 (tri_normalize (T3 (n D (-10)))) (tri_neg tri_unit_xyz) = true.
Proof. vm_compute. auto. Qed.
Example trivector_inverse :
  let t := T3 (n D 10) in tri_mul (tri_inverse t) t ~ n D 1 /\ tri_mul t (tri_inverse t) ~ n D 1.
Proof. vm_compute. auto. Qed.
Example trivector_geometric_product : tri_mul (T3 (n D 10)) (T3 (n D 20)) ~ n D (-200).
Proof. vm_compute. reflexivity. Qed.

(** ** src/math/rotor.rs:428-530 *)
Example rotor_identity :
  vec_ulps S 4 (rot_rotate (rot_identity (O := BO S)) vec_unit_x) vec_unit_x = true.
Proof. vm_compute. reflexivity. Qed.

Example rotor_inverse :
  let r1 := rot_from_vectors u v in let r2 := rot_inverse r1 in
  rot_ulps D 4 (rot_mul r1 r2) (Ro3 (n D 1) biv_zero) = true /\
  rot_ulps D 4 (rot_mul r2 r1) (Ro3 (n D 1) biv_zero) = true.
Proof. vm_compute. auto. Qed.

(** The rotor norm test prints these two and asserts nothing. *)
Example rotor_norm_test :
  let r := rot_from_vectors u v in
  rot_norm_squared r ~ oadd (o := BO D) (omul (o := BO D) (scalar r) (scalar r)) (biv_norm_squared (bivector r)).
Proof. vm_compute. reflexivity. Qed.

(** The vectors are f32, as the rotation by f32::consts::FRAC_PI_4 is applied to them. *)
Example rotor_rotate :
  let over k : BO S := odiv (o := BO S) (n S 1) (osqrt (o := BO S) (n S k)) in
  let x0 := v3 S 1 0 0 in let x1 := V3 (over 2) (over 2) (n S 0) in let x2 := V3 (over 3) (over 3) (over 3) in
  let r := rot_from_vectors (v3 S 1 0 0) (v3 S 0 1 0) in
  vec_ulps S 4 (rot_rotate r x0) (v3 S 0 1 0) = true /\
  vec_ulps S 4 (rot_rotate r x1) (V3 (odiv (o := BO S) (n S (-1)) (osqrt (o := BO S) (n S 2))) (over 2) (n S 0)) = true /\
  let r := rot_from_angle_plane (odiv (o := BO S) (cpi (o := BO S)) (n S 4)) biv_unit_yz in
  vec_ulps S 4 (rot_rotate r x0) (v3 S 1 0 0) = true /\
  vec_ulps S 4 (rot_rotate r x1) (V3 (over 2) (chalf (o := BO S)) (chalf (o := BO S))) = true /\
  vec_ulps S 4 (rot_rotate r x2) (V3 (over 3) (n S 0) (osqrt (o := BO S) (odiv (o := BO S) (n S 2) (n S 3)))) = true.
Proof. vm_compute. repeat split; reflexivity. Qed.

(** ** src/geometry/line.rs:49-74 (f32 here; the test's literals are f32 through Line) *)
Definition w (x y z : Z) : Vector3 f32 := V3 (f32_Z x) (f32_Z y) (f32_Z z).
Example line_contains_test :
  let line := line_new (w 1 1 0) (w 1 2 0) in
  line_contains lm0 line (vec_add (O := FO lm0) (w 1 1 0) (w 1 2 0)) = true /\
  line_contains lm0 line (vec_sub (O := FO lm0) (w 1 1 0) (vec_scale (O := FO lm0) (w 1 2 0) (f32_Z 2))) = true /\
  line_contains lm0 line (w (-1) 1 0) = false.
Proof. vm_compute. auto. Qed.

(** ** src/geometry/utils.rs:219-251 *)
Example utils_simple :
  (match calculate_triangle_incenter (xy 0 0) (xy 14 0) (xy 5 12) with
   | Some (p, _) => oeq (vx p) (f32_Z 6 : FO lm0) && oeq (vy p) (f32_Z 4 : FO lm0)
   | None => false end = true) /\
  (match calculate_triangle_incenter (xy 0 0) (xy 14 0) (xy 18 0) with Some _ => false | None => true end = true) /\
  parallel (xy 0 0) (xy 5 0) (xy 0 0) (xy (-5) 0) = true /\
  parallel (xy 0 0) (xy 5 0) (xy (-5) 0) (xy 0 0) = true.
Proof. vm_compute. auto. Qed.

(** ** src/geometry/polygon.rs:346-436 *)
Definition book : list (Vec2 GraphDemo.F) :=
  [xy 0 0; xy 10 7; xy 12 3; xy 20 8; xy 13 17; xy 10 12; xy 12 14; xy 14 9; xy 8 10;
   xy 6 14; xy 10 15; xy 7 18; xy 0 16; xy 1 13; xy 3 15; xy 5 8; xy (-2) 9; xy 5 5].

Example polygon_simple :
  (match polygon_new [xy 0 0; xy 5 0; xy 0 5] with
   | Some p => f32_ulps_eq (f32_of 25 (-1)) (polygon_area p) (ceps (o := GraphDemo.F)) 4
   | None => false end = true) /\
  let half : GraphDemo.F := f32_of 1 (-1) in
  between (xy 0 0) (xy 0 1) (P2 (f32_Z 0 : GraphDemo.F) half) = true /\ left (xy 0 0) (xy 0 1) (xy (-1) 0) = true /\
  left (xy 0 0) (xy 0 1) (xy 1 0) = false /\
  between (xy 0 0) (xy 1 1) (P2 half half) = true /\ left (xy 0 0) (xy 1 1) (xy 0 1) = true /\
  left (xy 0 0) (xy 1 1) (xy 1 0) = false.
Proof. vm_compute. repeat split; reflexivity. Qed.

(** The ear loop of the test (lines 419-425) does not panic. *)
Example polygon_book_ears :
  forallb (fun i => let '(a, b) := get_neighbor_indices 18 i in
    match diagonal book a b with Ok _ => true | Panic => false end) (seq 0 18) = true.
Proof. vm_compute. reflexivity. Qed.

(** The test prints the number of triangles of O'Rourke's polygon and asserts nothing. *)
Example polygon_book :
  match polygon_new book with
  | Some p => match triangulate 18 p with Some (Ok ts) => Nat.eqb (List.length ts) 16 | _ => false end
  | None => false
  end = true.
Proof. vm_compute. reflexivity. Qed.

(** ** src/graph/planar_graph.rs:518-536 (prints the edges, asserts nothing) *)
Definition plus_sign : list (@op GraphDemo.F nat nat) :=
  [N 100 100; N 200 100; N 150 50; N 150 150; E 0 1 0; E 2 3 0].
Example graph_simple :
  is_ok (run 0%nat graph_new plus_sign) = true /\
  shape (build plus_sign) = [(0, 4, 0); (2, 4, 0); (1, 4, 0); (3, 4, 0)]%nat.
Proof. vm_compute. auto. Qed.

(** examples/simple_graph/src/lib.rs:113-124: the same, then removals.  By hand: removing
    node 0 leaves (1,3) (0,3) (2,3); edge 1 ends in the stray node 0, so its removal leaves
    (0,2) (1,2); removing node 1 leaves (0,1). *)
Example simple_graph_program :
  let after k := plus_sign ++ firstn k [RN 0; RE 1; RN 1] in
  is_ok (run 0%nat graph_new (after 3%nat)) = true /\
  shape (build (after 1%nat)) = [(1, 3, 0); (0, 3, 0); (2, 3, 0)]%nat /\
  shape (build (after 2%nat)) = [(0, 2, 0); (1, 2, 0)]%nat /\
  shape (build (after 3%nat)) = [(0, 1, 0)]%nat /\
  node_count (build (after 3%nat)) = 2%nat /\ edge_count (build (after 3%nat)) = 1%nat.
Proof. vm_compute. repeat split; reflexivity. Qed.

(** examples/simple_polygons/src/lib.rs:120-149: the book polygon, scaled and moved. *)
Example simple_polygons_program :
  match polygon_new book with
  | Some p =>
      match triangulate 18 (polygon_translate (polygon_uniform_scale p (f32_Z 10 : GraphDemo.F)) (xy 250 250)) with
      | Some (Ok ts) => Nat.eqb (List.length ts) 16 | _ => false end
  | None => false
  end = true.
Proof. vm_compute. reflexivity. Qed.
