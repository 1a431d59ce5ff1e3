(** * src/math over an arbitrary commutative ring. *)
From Coq Require Import List Bool Ring.
From Verif Require Import Scalar GA GASpec.
Import ListNotations.

Section Ring.
Context {O : Ops} (CR : comm_ring O).
Local Open Scope ops_scope.
Let CR' : ring_theory (@c0 O) (@c1 O) (@oadd O) (@omul O) (@osub O) (@oneg O) eq := CR.
Add Ring Scalars : CR'.
Implicit Types (u v w : Vector3 O) (B C D : Bivector3 O) (T U : Trivector3 O) (r s q : Rotor3 O) (k l : O).

Ltac rec :=
  repeat match goal with
  | x : Vector3 _ |- _ => destruct x
  | x : Bivector3 _ |- _ => destruct x
  | x : Trivector3 _ |- _ => destruct x
  | x : Rotor3 _ |- _ => destruct x
  end.
Ltac blade_ring :=
  rec; intros [[] [] []];
  cbv [mmul madd mscale mrev mgrade msum signed fold_right blades bxor odd_swaps odd_reverse grade
       has1 has2 has3 xorb andb of_scalar of_vec of_biv of_tri of_rot Nat.eqb Nat.add scalar bivector
       a1 a2 a3 b1 b2 b3 t1];
  try ring.
Ltac unfold_ga :=
  cbv [vec_mul vec_dot vec_wedge vec_mul_biv vec_add vec_sub vec_neg vec_scale vec_zero
       biv_mul biv_dot biv_wedge biv_wedge_vec biv_add biv_sub biv_neg biv_scale biv_zero biv_norm_squared
       tri_mul tri_dot tri_neg tri_add tri_sub tri_zero tri_norm_squared vec_norm_squared
       rot_mul rot_mul_vec rot_dot rot_inverse rot_norm_squared rot_add rot_sub rot_neg rot_scale
       rot_identity rot_rotate det vec_unit_x vec_unit_y vec_unit_z biv_unit_xy biv_unit_xz biv_unit_yz tri_unit_xyz
       scalar bivector a1 a2 a3 b1 b2 b3 t1 fst snd].
Lemma V3_eq : forall x y z x' y' z' : O, x = x' -> y = y' -> z = z' -> V3 x y z = V3 x' y' z'.
Proof. intros; subst; reflexivity. Qed.
Lemma B3_eq : forall x y z x' y' z' : O, x = x' -> y = y' -> z = z' -> B3 x y z = B3 x' y' z'.
Proof. intros; subst; reflexivity. Qed.
Lemma T3_eq : forall x x' : O, x = x' -> T3 x = T3 x'.
Proof. intros; subst; reflexivity. Qed.
Lemma Ro3_eq : forall (x x' : O) B B', x = x' -> B = B' -> Ro3 x B = Ro3 x' B'.
Proof. intros; subst; reflexivity. Qed.
Ltac ga_ring := rec; unfold_ga; try apply Ro3_eq; try apply V3_eq; try apply B3_eq; try apply T3_eq; try ring.

(** ** The specification is the Clifford algebra of the Euclidean form *)
Lemma mmul_assoc : forall x y z : mv O, mmul (mmul x y) z == mmul x (mmul y z).
Proof.
  intros x y z [[] [] []];
  cbv [mmul msum signed fold_right blades bxor odd_swaps has1 has2 has3 xorb andb]; ring.
Qed.
Lemma mmul_1_l : forall x : mv O, mmul (of_scalar c1) x == x.
Proof. intros x. blade_ring. Qed.
Lemma mmul_1_r : forall x : mv O, mmul x (of_scalar c1) == x.
Proof. intros x. blade_ring. Qed.
Lemma mmul_add_l : forall x y z : mv O, mmul (madd x y) z == madd (mmul x z) (mmul y z).
Proof. intros x y z. blade_ring. Qed.
Lemma mmul_add_r : forall x y z : mv O, mmul x (madd y z) == madd (mmul x y) (mmul x z).
Proof. intros x y z. blade_ring. Qed.
Lemma mmul_scale : forall k (x y : mv O),
  mmul (mscale k x) y == mscale k (mmul x y) /\ mmul x (mscale k y) == mscale k (mmul x y).
Proof. intros k x y. split; blade_ring. Qed.
(** The square of a vector is its quadratic form: the defining relation. *)
Lemma mmul_square : forall u, mmul (of_vec u) (of_vec u) == of_scalar (a1 u * a1 u + a2 u * a2 u + a3 u * a3 u).
Proof. intros u. blade_ring. Qed.
Lemma mrev_anti : forall x y : mv O, mrev (mmul x y) == mmul (mrev y) (mrev x).
Proof. intros x y. blade_ring. Qed.
Lemma mmul_ext : forall x x' y y' : mv O, x == x' -> y == y' -> mmul x y == mmul x' y'.
Proof.
  intros x x' y y' Hx Hy c. unfold mmul, msum. cbn [fold_right blades]. now rewrite !Hx, !Hy.
Qed.
(** The embeddings are injective. *)
Lemma of_rot_inj : forall r s, of_rot r == of_rot s -> r = s.
Proof.
  intros [a [x y z]] [a' [x' y' z']] H.
  pose proof (H (Bl false false false)) as H0. pose proof (H (Bl true true false)) as H1.
  pose proof (H (Bl true false true)) as H2. pose proof (H (Bl false true true)) as H3.
  cbv [of_rot madd of_scalar of_biv scalar bivector b1 b2 b3] in *.
  assert (E0 : a = a') by (transitivity (a + c0); [ring|]; rewrite H0; ring).
  assert (E1 : x = x') by (transitivity (c0 + x); [ring|]; rewrite H1; ring).
  assert (E2 : y = y') by (transitivity (c0 + y); [ring|]; rewrite H2; ring).
  assert (E3 : z = z') by (transitivity (c0 + z); [ring|]; rewrite H3; ring).
  now subst.
Qed.
Lemma of_vec_inj : forall u v, of_vec u == of_vec v -> u = v.
Proof.
  intros [x y z] [x' y' z'] H.
  pose proof (H (Bl true false false)) as H1. pose proof (H (Bl false true false)) as H2.
  pose proof (H (Bl false false true)) as H3. cbv [of_vec a1 a2 a3] in *. now subst.
Qed.

(** ** Products *)
Lemma vec_mul_spec : forall u v, of_rot (vec_mul u v) == mmul (of_vec u) (of_vec v).
Proof. intros u v. unfold vec_mul, vec_dot, vec_wedge. blade_ring. Qed.
Lemma vec_mul_biv_spec : forall u B,
  madd (of_vec (fst (vec_mul_biv u B))) (of_tri (snd (vec_mul_biv u B))) == mmul (of_vec u) (of_biv B).
Proof. intros u B. unfold vec_mul_biv, fst, snd. blade_ring. Qed.
Lemma biv_mul_spec : forall B C, of_rot (biv_mul B C) == mmul (of_biv B) (of_biv C).
Proof. intros B C. unfold biv_mul. blade_ring. Qed.
Lemma tri_mul_spec : forall T U, of_scalar (tri_mul T U) == mmul (of_tri T) (of_tri U).
Proof. intros T U. unfold tri_mul. blade_ring. Qed.
Lemma rot_mul_spec : forall r s, of_rot (rot_mul r s) == mmul (of_rot r) (of_rot s).
Proof. intros r s. rec. unfold rot_mul. blade_ring. Qed.
Lemma rot_mul_vec_spec : forall r u,
  madd (of_vec (fst (rot_mul_vec r u))) (of_tri (snd (rot_mul_vec r u))) == mmul (of_rot r) (of_vec u).
Proof. intros r u. rec. unfold rot_mul_vec, fst, snd. blade_ring. Qed.

Lemma rot_mul_assoc : forall r s q, rot_mul (rot_mul r s) q = rot_mul r (rot_mul s q).
Proof. intros. ga_ring. Qed.
Lemma rot_mul_1 : forall r, rot_mul rot_identity r = r /\ rot_mul r rot_identity = r.
Proof. intros. split; ga_ring. Qed.
Lemma rot_mul_add : forall r s q,
  rot_mul (rot_add r s) q = rot_add (rot_mul r q) (rot_mul s q) /\
  rot_mul q (rot_add r s) = rot_add (rot_mul q r) (rot_mul q s).
Proof. intros. split; ga_ring. Qed.

(** ** Wedges *)
Lemma vec_wedge_grade : forall u v, of_biv (vec_wedge u v) == mgrade 2 (mmul (of_vec u) (of_vec v)).
Proof. intros u v. unfold vec_wedge. blade_ring. Qed.
Lemma vec_wedge_bilinear : forall u v w k l,
  vec_wedge (vec_add (vec_scale u k) (vec_scale v l)) w =
    biv_add (biv_scale (vec_wedge u w) k) (biv_scale (vec_wedge v w) l) /\
  vec_wedge w (vec_add (vec_scale u k) (vec_scale v l)) =
    biv_add (biv_scale (vec_wedge w u) k) (biv_scale (vec_wedge w v) l).
Proof. intros. split; ga_ring. Qed.
Lemma vec_wedge_anti : forall u v, vec_wedge v u = biv_neg (vec_wedge u v) /\ vec_wedge u u = biv_zero.
Proof. intros. split; ga_ring. Qed.
Lemma biv_wedge_vec_grade : forall B u, of_tri (biv_wedge_vec B u) == mgrade 3 (mmul (of_biv B) (of_vec u)).
Proof. intros B u. unfold biv_wedge_vec. blade_ring. Qed.
Lemma wedge_det : forall u v w, t1 (biv_wedge_vec (vec_wedge u v) w) = det u v w.
Proof. intros. rec. unfold_ga. ring. Qed.
Lemma biv_wedge_grade : forall B C, of_biv (biv_wedge B C) == mgrade 2 (mmul (of_biv B) (of_biv C)).
Proof. intros B C. unfold biv_wedge. blade_ring. Qed.
Lemma biv_mul_dot_wedge : forall B C,
  scalar (biv_mul B C) = biv_dot B C /\ bivector (biv_mul B C) = biv_wedge B C.
Proof. intros. split; reflexivity. Qed.
Lemma biv_exterior_zero : forall B C c, mgrade 4 (mmul (of_biv B) (of_biv C)) c = c0.
Proof. intros B C [[] [] []]; reflexivity. Qed.
(** [biv_wedge] is half the commutator. *)
Lemma biv_wedge_commutator : forall B C,
  madd (of_biv (biv_wedge B C)) (of_biv (biv_wedge B C)) ==
  madd (mmul (of_biv B) (of_biv C)) (mscale (- c1) (mmul (of_biv C) (of_biv B))).
Proof. intros B C. unfold biv_wedge. blade_ring. Qed.
Lemma biv_wedge_anti : forall B C, biv_wedge C B = biv_neg (biv_wedge B C).
Proof. intros. ga_ring. Qed.
Lemma biv_wedge_jacobi : forall B C D,
  biv_add (biv_wedge B (biv_wedge C D)) (biv_add (biv_wedge C (biv_wedge D B)) (biv_wedge D (biv_wedge B C))) = biv_zero.
Proof. intros. ga_ring. Qed.

(** ** Dot products and norms *)
Lemma vec_dot_grade : forall u v, of_scalar (vec_dot u v) == mgrade 0 (mmul (of_vec u) (of_vec v)).
Proof. intros u v. unfold vec_dot. blade_ring. Qed.
Lemma biv_dot_grade : forall B C, of_scalar (biv_dot B C) == mgrade 0 (mmul (of_biv B) (of_biv C)).
Proof. intros B C. unfold biv_dot. blade_ring. Qed.
Lemma tri_dot_grade : forall T U, of_scalar (tri_dot T U) == mgrade 0 (mmul (of_tri T) (of_tri U)).
Proof. intros T U. unfold tri_dot. blade_ring. Qed.
Lemma rot_dot_grade : forall r s, of_scalar (rot_dot r s) == mgrade 0 (mmul (of_rot r) (of_rot s)).
Proof. intros r s. rec. unfold rot_dot, biv_dot. blade_ring. Qed.
Lemma vec_norm2 : forall u, of_scalar (vec_norm_squared u) == mmul (of_vec u) (mrev (of_vec u)).
Proof. intros u. unfold vec_norm_squared, vec_dot. blade_ring. Qed.
Lemma biv_norm2 : forall B, of_scalar (biv_norm_squared B) == mmul (of_biv B) (mrev (of_biv B)).
Proof. intros B. unfold biv_norm_squared, biv_dot, biv_neg. blade_ring. Qed.
Lemma tri_norm2 : forall T, of_scalar (tri_norm_squared T) == mmul (of_tri T) (mrev (of_tri T)).
Proof. intros T. unfold tri_norm_squared, tri_dot, tri_neg. blade_ring. Qed.
Lemma rot_norm2 : forall r, of_scalar (rot_norm_squared r) == mmul (of_rot r) (mrev (of_rot r)).
Proof. intros r. rec. unfold rot_norm_squared, rot_dot, rot_inverse, biv_dot, biv_neg. blade_ring. Qed.
Lemma norm2_sums : forall u B T r,
  vec_norm_squared u = a1 u * a1 u + a2 u * a2 u + a3 u * a3 u /\
  biv_norm_squared B = b1 B * b1 B + b2 B * b2 B + b3 B * b3 B /\
  tri_norm_squared T = t1 T * t1 T /\
  rot_norm_squared r = scalar r * scalar r +
    (b1 (bivector r) * b1 (bivector r) + b2 (bivector r) * b2 (bivector r) + b3 (bivector r) * b3 (bivector r)).
Proof. intros. rec. unfold_ga. repeat split; ring. Qed.
Lemma vec_dot_sym : forall u v, vec_dot u v = vec_dot v u.
Proof. intros. rec. unfold_ga. ring. Qed.
Lemma biv_dot_sym : forall u v : Bivector3 O, biv_dot u v = biv_dot v u.
Proof. intros. rec. unfold_ga. ring. Qed.
Lemma tri_dot_sym : forall u v : Trivector3 O, tri_dot u v = tri_dot v u.
Proof. intros. rec. unfold_ga. ring. Qed.
Lemma rot_dot_sym : forall u v : Rotor3 O, rot_dot u v = rot_dot v u.
Proof. intros. rec. unfold_ga. ring. Qed.
Lemma dot_symmetric : forall u v B C T U r s,
  vec_dot u v = vec_dot v u /\ biv_dot B C = biv_dot C B /\ tri_dot T U = tri_dot U T /\ rot_dot r s = rot_dot s r.
Proof. intros. rec. unfold_ga. repeat split; ring. Qed.
Lemma lagrange_identity : forall u v,
  biv_norm_squared (vec_wedge u v) = vec_norm_squared u * vec_norm_squared v - vec_dot u v * vec_dot u v.
Proof. intros. rec. unfold_ga. ring. Qed.
Lemma rot_norm_mul : forall r s, rot_norm_squared (rot_mul r s) = rot_norm_squared r * rot_norm_squared s.
Proof. intros. rec. unfold_ga. ring. Qed.

(** ** Rotor inverse is the reversal *)
Lemma rot_inverse_rev : forall r, of_rot (rot_inverse r) == mrev (of_rot r).
Proof. intros r. rec. unfold rot_inverse, biv_neg. blade_ring. Qed.
Lemma rot_inverse_mul : forall r,
  rot_mul r (rot_inverse r) = Ro3 (rot_norm_squared r) biv_zero /\
  rot_mul (rot_inverse r) r = Ro3 (rot_norm_squared r) biv_zero.
Proof. intros. split; ga_ring. Qed.

(** ** rotate *)
Lemma rotate_sandwich : forall r u, of_vec (rot_rotate r u) == mmul (mmul (of_rot r) (of_vec u)) (mrev (of_rot r)).
Proof. intros r u. cbv [rot_rotate a1 a2 a3 b1 b2 b3 scalar bivector]. blade_ring. Qed.
Lemma rotate_linear : forall r u v k l,
  rot_rotate r (vec_add (vec_scale u k) (vec_scale v l)) =
  vec_add (vec_scale (rot_rotate r u) k) (vec_scale (rot_rotate r v) l).
Proof. intros. ga_ring. Qed.
Lemma rotate_dot : forall r u v,
  vec_dot (rot_rotate r u) (rot_rotate r v) = rot_norm_squared r * rot_norm_squared r * vec_dot u v.
Proof. intros. rec. unfold_ga. ring. Qed.
Lemma rotate_det : forall r u v w,
  det (rot_rotate r u) (rot_rotate r v) (rot_rotate r w) =
  rot_norm_squared r * rot_norm_squared r * rot_norm_squared r * det u v w.
Proof. intros. rec. unfold_ga. ring. Qed.
Lemma rotate_inverse : forall r u,
  rot_rotate (rot_inverse r) (rot_rotate r u) = vec_scale u (rot_norm_squared r * rot_norm_squared r).
Proof. intros. ga_ring. Qed.
Lemma rotate_compose : forall r s u, rot_rotate (rot_mul r s) u = rot_rotate r (rot_rotate s u).
Proof. intros. ga_ring. Qed.
Lemma rotate_identity : forall u, rot_rotate rot_identity u = u.
Proof. intros. ga_ring. Qed.
(** Rotations also carry wedges to (scaled) wedges: rotate is the sandwich on planes. *)
Lemma rotate_neg : forall r u, rot_rotate (rot_neg r) u = rot_rotate r u.
Proof. intros. ga_ring. Qed.

(** The vector part of the product u B (the contraction of u into B) drives everything:
    rotate(a+B, u) = |R|^2 u - 2a (u.B) + 2 (u.B).B *)
Lemma contract_val : forall u B, contract u B =
  V3 (- a2 u * b1 B - a3 u * b2 B) (a1 u * b1 B - a3 u * b3 B) (a1 u * b2 B + a2 u * b3 B).
Proof.
  intros [x y z] [p q r]. cbv [contract vec_part mmul msum signed fold_right blades bxor odd_swaps
    has1 has2 has3 xorb andb of_vec of_biv a1 a2 a3 b1 b2 b3]. apply V3_eq; ring.
Qed.
Lemma contract_fst : forall u B, contract u B = fst (vec_mul_biv u B).
Proof. exact contract_val. Qed.
Lemma rotate_contract : forall k B u,
  rot_rotate (Ro3 k B) u =
  vec_add (vec_sub (vec_scale u (rot_norm_squared (Ro3 k B))) (vec_scale (contract u B) ((c1 + c1) * k)))
          (vec_scale (contract (contract u B) B) (c1 + c1)).
Proof. intros. rewrite !contract_val. ga_ring. Qed.
Lemma contract_wedge : forall u v w,
  contract w (vec_wedge u v) = vec_sub (vec_scale v (vec_dot w u)) (vec_scale u (vec_dot w v)).
Proof. intros. rewrite !contract_val. ga_ring. Qed.
(** For u in the plane of B (u^B = 0): contraction is |B| times a right-angled turn. *)
Lemma contract_orth : forall u B, vec_dot u (contract u B) = c0.
Proof. intros. rewrite !contract_val. rec. unfold_ga. ring. Qed.
Lemma contract_twice : forall u B, t1 (biv_wedge_vec B u) = c0 ->
  contract (contract u B) B = vec_scale u (- biv_norm_squared B).
Proof.
  intros [x y z] [p q r] H. cbv [biv_wedge_vec a1 a2 a3 b1 b2 b3 t1] in H.
  rewrite !contract_val. unfold_ga.
  apply V3_eq;
    [ transitivity (- x * (p * p + q * q + r * r) + r * (r * x - q * y + p * z))
    | transitivity (- y * (p * p + q * q + r * r) - q * (r * x - q * y + p * z))
    | transitivity (- z * (p * p + q * q + r * r) + p * (r * x - q * y + p * z)) ]; try ring; rewrite H; ring.
Qed.
Lemma contract_norm : forall u B, t1 (biv_wedge_vec B u) = c0 ->
  vec_norm_squared (contract u B) = vec_norm_squared u * biv_norm_squared B.
Proof.
  intros [x y z] [p q r] H. cbv [biv_wedge_vec a1 a2 a3 b1 b2 b3 t1] in H. rewrite !contract_val. unfold_ga.
  transitivity ((x * x + y * y + z * z) * (p * p + q * q + r * r)
                - (r * x - q * y + p * z) * (r * x - q * y + p * z)); [ring|]. rewrite H. ring.
Qed.
Lemma contract_turn : forall u B, t1 (biv_wedge_vec B u) = c0 ->
  vec_wedge u (contract u B) = biv_scale B (vec_norm_squared u).
Proof.
  intros [x y z] [p q r] H. cbv [biv_wedge_vec a1 a2 a3 b1 b2 b3 t1] in H. rewrite !contract_val. unfold_ga.
  apply B3_eq;
    [ transitivity (p * (x * x + y * y + z * z) - z * (r * x - q * y + p * z))
    | transitivity (q * (x * x + y * y + z * z) + y * (r * x - q * y + p * z))
    | transitivity (r * (x * x + y * y + z * z) - x * (r * x - q * y + p * z)) ]; try ring; rewrite H; ring.
Qed.

(** The unnormalised rotor of from_vectors, 1 + vu, for arbitrary u and v. *)
Lemma half_rotor_norm : forall u v,
  rot_norm_squared (Ro3 (c1 + vec_dot v u) (vec_wedge v u)) =
  c1 + (c1 + c1) * vec_dot u v + vec_norm_squared u * vec_norm_squared v.
Proof. intros. rec. unfold_ga. ring. Qed.
Lemma half_rotor_image : forall u v,
  rot_rotate (Ro3 (c1 + vec_dot v u) (vec_wedge v u)) u =
  vec_add (vec_scale u (c1 - vec_norm_squared u * vec_norm_squared v))
          (vec_scale v ((c1 + c1) * vec_norm_squared u * (c1 + vec_dot u v))).
Proof. intros. ga_ring. Qed.
Lemma rotate_scale : forall r u k, rot_rotate (rot_scale r k) u = vec_scale (rot_rotate r u) (k * k).
Proof. intros. ga_ring. Qed.

(** ** Componentwise algebra *)
Definition module_laws {X} (add sub : X -> X -> X) (neg : X -> X) (zero : X) (scale : X -> O -> X) : Prop :=
  forall x y z k l,
  add x y = add y x /\ add (add x y) z = add x (add y z) /\
  add zero x = x /\ add x (neg x) = zero /\ sub x y = add x (neg y) /\
  scale (add x y) k = add (scale x k) (scale y k) /\
  scale x (k + l) = add (scale x k) (scale x l) /\
  scale (scale x k) l = scale x (k * l) /\ scale x c1 = x.
Lemma vec_module : module_laws vec_add vec_sub vec_neg vec_zero vec_scale.
Proof. intros x y z k l. repeat split; ga_ring. Qed.
Lemma biv_module : module_laws biv_add biv_sub biv_neg biv_zero biv_scale.
Proof. intros x y z k l. repeat split; ga_ring. Qed.
Lemma tri_module : module_laws tri_add tri_sub tri_neg tri_zero tri_scale_assign.
Proof. intros x y z k l. unfold tri_scale_assign. repeat split; ga_ring. Qed.
Lemma rot_module : module_laws rot_add rot_sub rot_neg (Ro3 c0 biv_zero) rot_scale.
Proof. intros x y z k l. repeat split; ga_ring. Qed.
End Ring.
