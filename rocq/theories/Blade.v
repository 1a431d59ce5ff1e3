(** * Model of src/math/blade.rs: usize arithmetic of width [w] bits, both build
    profiles.  Values are Z. *)
From Coq Require Import ZArith List Bool.
From Verif Require Import Scalar.
Import ListNotations.
Local Open Scope Z_scope.

Inductive profile := Debug | Release.

Section Blade.
Variable w : Z.              (* usize::BITS: 32 (wasm32) or 64 *)
Variable pr : profile.

(** The machine result of an exact result [z]: overflow panics in debug builds and
    wraps in release builds. *)
Definition fit (z : Z) : res Z :=
  if (0 <=? z) && (z <? 2 ^ w) then Ok z
  else match pr with Debug => Panic | Release => Ok (z mod 2 ^ w) end.

(** [for i in lo..hi] *)
Definition range (lo hi : Z) : list Z :=
  map (fun k => lo + Z.of_nat k) (seq 0 (Z.to_nat (hi - lo))).

(** blade.rs:48-50: [2usize.pow(dim as u32)]; the cast truncates to 32 bits *)
Definition total_number_of_basis_blades (dim : Z) : res Z := fit (2 ^ (dim mod 2 ^ 32)).

(** blade.rs:53-59 factorial *)
Fixpoint fact_loop (is : list Z) (fact : Z) : res Z :=
  match is with
  | [] => Ok fact
  | i :: is' => let! fact' := fit (fact * i) in fact_loop is' fact'
  end.
Definition factorial (n : Z) : res Z := fact_loop (range 2 n) n.

(** blade.rs:63-69 binomial_coefficient *)
Fixpoint num_loop (n : Z) (is : list Z) (num : Z) : res Z :=
  match is with
  | [] => Ok num
  | i :: is' =>
      let! d := fit (n - i) in
      let! num' := fit (num * d) in
      num_loop n is' num'
  end.
Definition binomial_coefficient (n k : Z) : res Z :=
  let! num := num_loop n (range 1 k) n in
  let! f := factorial k in
  if f =? 0 then Panic   (* division by zero panics in both profiles *)
  else Ok (num / f).

(** blade.rs:75-77 *)
Definition number_of_basis_blades (n k : Z) : res Z := binomial_coefficient n k.
End Blade.
