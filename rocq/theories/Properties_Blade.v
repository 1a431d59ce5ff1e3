(** * C52, C70: src/math/blade.rs.

    [binom] is Pascal's triangle, [falling n k] = n(n-1)..(n-k+1), [fact] the factorial
    (BladeProofs.v).  [w] is the width of usize. *)
From Coq Require Import ZArith List Bool Lia.
From Verif Require Import Scalar Blade BladeProofs.
Import ListNotations.
Local Open Scope Z_scope.

(** ** C52 *)

(** Grade 0 divides by factorial(0) = 0. *)
Theorem C52_grade_0_refuted :
  ~ (forall w pr (n k : nat), w = 32 \/ w = 64 -> (k <= n)%nat -> falling (Z.of_nat n) k < 2 ^ w ->
     number_of_basis_blades w pr (Z.of_nat n) (Z.of_nat k) = Ok (binom n k)).
Proof. intros H. discriminate (H 64 Debug 3%nat 0%nat (or_intror eq_refl) ltac:(lia) ltac:(vm_compute; reflexivity)). Qed.
Print Assumptions C52_grade_0_refuted.

Theorem C52_total :
  forall w pr dim, 0 < w -> 0 <= dim < 2 ^ 32 -> 2 ^ dim < 2 ^ w -> total_number_of_basis_blades w pr dim = Ok (2 ^ dim).
Proof. intros w pr dim W D H. apply total_fits; [assumption..|]. apply Z.pow_lt_mono_r_iff in H; lia. Qed.
Print Assumptions C52_total.

(** ** C70 *)

(** The specification is the number of k-element subsets: Pascal's rule and n!/(k!(n-k)!). *)
Theorem C70_binomial_spec :
  (forall n k, falling (Z.of_nat n) k = fact k * binom n k) /\
  (forall n, binom n n = 1) /\ (forall n k, (n < k)%nat -> binom n k = 0) /\
  (forall n k, (k <= n)%nat -> fact n = fact k * fact (n - k) * binom n k).
Proof. exact binomial_spec. Qed.
Print Assumptions C70_binomial_spec.

Theorem C70_grade_0 : forall w pr n, number_of_basis_blades w pr n 0 = Panic.
Proof. intros. reflexivity. Qed.
Print Assumptions C70_grade_0.

(** Grades 1..n: in debug builds the binomial coefficient iff the numerator fits,
    else a panic. *)
Theorem C70_value_iff_fits :
  forall w (n k : nat), 0 < w -> (1 <= k <= n)%nat -> Z.of_nat n < 2 ^ w ->
  (falling (Z.of_nat n) k < 2 ^ w -> forall pr, number_of_basis_blades w pr (Z.of_nat n) (Z.of_nat k) = Ok (binom n k)) /\
  (2 ^ w <= falling (Z.of_nat n) k -> number_of_basis_blades w Debug (Z.of_nat n) (Z.of_nat k) = Panic).
Proof.
  intros w n k W H Hn. split; [intros F pr; now apply blades_value|intros F; now apply blades_overflow].
Qed.
Print Assumptions C70_value_iff_fits.

(** Grades above n in debug builds. *)
Theorem C70_above_n :
  forall w (n k : nat), 0 < w -> (n < k)%nat -> Z.of_nat k < 2 ^ w ->
  number_of_basis_blades w Debug (Z.of_nat n) (Z.of_nat k) =
  if Nat.eqb k (S n) && Z.ltb (fact k) (2 ^ w) then Ok 0 else Panic.
Proof.
  intros w n k W H Hk. destruct (Nat.eqb_spec k (S n)) as [->|N]; cbn [andb].
  - now apply blades_above.
  - apply blades_far_above; lia.
Qed.
Print Assumptions C70_above_n.

(** Release builds, any grade from 1: numerator and denominator wrap separately. *)
Theorem C70_release :
  forall w (n k : nat), 0 < w -> (1 <= k)%nat -> Z.of_nat n < 2 ^ w -> Z.of_nat k < 2 ^ w ->
  number_of_basis_blades w Release (Z.of_nat n) (Z.of_nat k) =
  if Z.eqb (fact k mod 2 ^ w) 0 then Panic else Ok ((falling (Z.of_nat n) k mod 2 ^ w) / (fact k mod 2 ^ w)).
Proof. intros w n k W. now apply blades_release. Qed.
Print Assumptions C70_release.

(** The total: overflow panics in debug and gives 0 in release; the exponent is cut to
    32 bits, so a dimension of 2^32 silently gives 1. *)
Theorem C70_total_overflow :
  forall w dim, 0 < w -> w <= dim mod 2 ^ 32 ->
  total_number_of_basis_blades w Debug dim = Panic /\ total_number_of_basis_blades w Release dim = Ok 0.
Proof. intros w dim W. now apply total_overflow. Qed.
Print Assumptions C70_total_overflow.
Theorem C70_total_truncates :
  forall w pr dim, 0 <= dim -> total_number_of_basis_blades w pr (dim + 2 ^ 32) = total_number_of_basis_blades w pr dim.
Proof.
  intros w pr dim H. unfold total_number_of_basis_blades. replace (dim + 2 ^ 32) with (dim + 1 * 2 ^ 32) by ring.
  now rewrite Z.mod_add by discriminate.
Qed.
Print Assumptions C70_total_truncates.

(** Grades 1..n add up to the total minus the scalar. *)
Theorem C70_sum :
  forall w pr (n : nat), w = 32 \/ w = 64 -> fact n < 2 ^ w -> Z.of_nat n < 2 ^ 32 ->
  exists counts, map (fun k => number_of_basis_blades w pr (Z.of_nat n) (Z.of_nat k)) (seq 1 n) = map Ok counts /\
  counts = map (binom n) (seq 1 n) /\
  total_number_of_basis_blades w pr (Z.of_nat n) = Ok (1 + fold_right Z.add 0 counts).
Proof. intros w pr n W. apply blades_sum; lia. Qed.
Print Assumptions C70_sum.

Example C70_example :
  number_of_basis_blades 64 Debug 3 2 = Ok 3 /\ number_of_basis_blades 64 Debug 20 10 = Ok 184756 /\
  number_of_basis_blades 32 Debug 20 10 = Panic /\ number_of_basis_blades 64 Debug 3 4 = Ok 0 /\
  number_of_basis_blades 64 Debug 3 5 = Panic /\ number_of_basis_blades 32 Release 20 10 = Ok 117 /\
  total_number_of_basis_blades 64 Debug 3 = Ok 8 /\ total_number_of_basis_blades 64 Debug 64 = Panic /\
  total_number_of_basis_blades 64 Debug (2 ^ 32) = Ok 1 /\ fact 20 < 2 ^ 64.
Proof. vm_compute. repeat split. Qed.
