(** * src/math/blade.rs: binomials, factorials and overflow. *)
From Coq Require Import ZArith List Bool Lia Arith.
From Verif Require Import Scalar Blade.
Import ListNotations.
Local Open Scope Z_scope.

(** ** Specification *)

(** Pascal's triangle *)
Fixpoint binom (n k : nat) : Z :=
  match n, k with
  | _, O => 1
  | O, S _ => 0
  | S n', S k' => binom n' k' + binom n' (S k')
  end.
(** n (n-1) ... (n-k+1), zero for k > n *)
Fixpoint falling (n : Z) (k : nat) : Z :=
  match k with O => 1 | S k' => falling n k' * (n - Z.of_nat k') end.
Fixpoint fact (n : nat) : Z := match n with O => 1 | S n' => Z.of_nat n * fact n' end.

Lemma binom_zero : forall n k, (n < k)%nat -> binom n k = 0.
Proof.
  induction n as [|n IH]; intros [|k] H; try lia; [reflexivity|].
  cbn [binom]. rewrite !IH by lia. reflexivity.
Qed.
Lemma falling_S : forall k n, falling (n + 1) (S k) = (n + 1) * falling n k.
Proof.
  induction k as [|k IH]; intros n; [cbn [falling]; change (Z.of_nat 0) with 0; ring|].
  change (falling (n + 1) (S (S k))) with (falling (n + 1) (S k) * (n + 1 - Z.of_nat (S k))).
  rewrite IH. cbn [falling]. replace (n + 1 - Z.of_nat (S k)) with (n - Z.of_nat k) by lia. ring.
Qed.
Lemma falling_pascal : forall k n, falling (n + 1) (S k) = falling n (S k) + Z.of_nat (S k) * falling n k.
Proof. intros k n. rewrite falling_S. cbn [falling]. lia. Qed.
Lemma falling_binom : forall n k, falling (Z.of_nat n) k = fact k * binom n k.
Proof.
  induction n as [|n IH]; intros [|k]; try reflexivity.
  - cbn [binom]. rewrite Z.mul_0_r. induction k as [|k IHk]; [reflexivity|].
    change (falling (Z.of_nat 0) (S (S k))) with (falling (Z.of_nat 0) (S k) * (Z.of_nat 0 - Z.of_nat (S k))). now rewrite IHk.
  - replace (Z.of_nat (S n)) with (Z.of_nat n + 1) by lia. rewrite falling_pascal, !IH.
    cbn [binom]. replace (fact (S k)) with (Z.of_nat (S k) * fact k) by reflexivity. ring.
Qed.
Lemma fact_pos : forall n, 1 <= fact n.
Proof. induction n; cbn [fact]; [lia|nia]. Qed.
Lemma binom_nonneg : forall n k, 0 <= binom n k.
Proof. induction n; intros [|k]; cbn [binom]; try lia. pose proof (IHn k). pose proof (IHn (S k)). lia. Qed.
Lemma binom_pos : forall n k, (k <= n)%nat -> 1 <= binom n k.
Proof.
  induction n; intros [|k] H; cbn [binom]; try lia.
  pose proof (IHn k ltac:(lia)). pose proof (binom_nonneg n (S k)). lia.
Qed.
Lemma fact_falling : forall n k, (k <= n)%nat -> fact k <= falling (Z.of_nat n) k.
Proof. intros n k H. rewrite falling_binom. pose proof (binom_pos n k H). pose proof (fact_pos k). nia. Qed.
Lemma falling_full : forall n, falling (Z.of_nat n) n = fact n.
Proof.
  intros n. rewrite falling_binom. assert (binom n n = 1) as ->; [|lia].
  induction n as [|n IH]; [reflexivity|]. cbn [binom]. rewrite IH, binom_zero by lia. reflexivity.
Qed.
Lemma falling_le_fact : forall n k, (k <= n)%nat -> falling (Z.of_nat n) k <= fact n.
Proof.
  intros n k H. rewrite <- falling_full. induction H as [|m H IH]; [lia|].
  assert (G : forall j, (k <= j <= S m)%nat -> falling (Z.of_nat (S m)) k <= falling (Z.of_nat (S m)) j).
  { induction j as [|j IHj]; intros Hj; [replace k with 0%nat by lia; lia|].
    destruct (Nat.eq_dec k (S j)) as [->|]; [lia|]. specialize (IHj ltac:(lia)). cbn [falling].
    assert (0 <= falling (Z.of_nat (S m)) j).
    { rewrite falling_binom. pose proof (fact_pos j). pose proof (binom_nonneg (S m) j). nia. }
    nia. }
  apply G. lia.
Qed.

(** Row sums *)
Fixpoint row_sum (n k : nat) : Z := match k with O => binom n 0 | S k' => row_sum n k' + binom n k end.
Lemma row_sum_step : forall n k, row_sum (S n) (S k) = row_sum n (S k) + row_sum n k.
Proof.
  intros n k. induction k as [|k IH].
  - cbn [row_sum binom]. destruct n; reflexivity || (cbn [binom]; lia).
  - change (row_sum (S n) (S (S k))) with (row_sum (S n) (S k) + binom (S n) (S (S k))). rewrite IH.
    change (row_sum n (S (S k))) with (row_sum n (S k) + binom n (S (S k))).
    change (binom (S n) (S (S k))) with (binom n (S k) + binom n (S (S k))).
    change (row_sum n (S k)) with (row_sum n k + binom n (S k)) at 3. lia.
Qed.
Lemma row_sum_beyond : forall n, row_sum n (S n) = row_sum n n.
Proof. intros n. cbn [row_sum]. rewrite binom_zero by lia. lia. Qed.
Lemma row_sum_pow : forall n, row_sum n n = 2 ^ Z.of_nat n.
Proof.
  induction n as [|n IH]; [reflexivity|]. rewrite row_sum_step, row_sum_beyond, IH.
  rewrite Nat2Z.inj_succ, Z.pow_succ_r by lia. lia.
Qed.

(** ** The code *)
Section Code.
Variable w : Z.
Hypothesis Hw : 0 < w.
Let M := 2 ^ w.
Lemma M_pos : 0 < M. Proof. apply Z.pow_pos_nonneg; lia. Qed.

Lemma fit_ok : forall pr z, 0 <= z < M -> fit w pr z = Ok z.
Proof.
  intros pr z H. unfold fit. replace (0 <=? z) with true by (symmetry; apply Z.leb_le; lia).
  replace (z <? 2 ^ w) with true by (symmetry; apply Z.ltb_lt; unfold M in H; lia). reflexivity.
Qed.
Lemma fit_debug_panic : forall z, ~ (0 <= z < M) -> fit w Debug z = Panic.
Proof.
  intros z H. unfold fit. destruct (Z.leb_spec 0 z), (Z.ltb_spec z (2 ^ w)); try reflexivity. unfold M in H. lia.
Qed.
Lemma fit_release : forall z, fit w Release z = Ok (z mod M).
Proof.
  intros z. unfold fit. fold M. destruct (Z.leb_spec 0 z), (Z.ltb_spec z M); try reflexivity.
  cbn [andb]. now rewrite Z.mod_small by lia.
Qed.

Definition prod (f : Z -> Z) (is : list Z) : Z := fold_left (fun p i => p * f i) is 1.
Lemma fold_prod : forall f is a, fold_left (fun p i => p * f i) is a = a * prod f is.
Proof.
  intros f. unfold prod. induction is as [|i is IH]; intros a; cbn [fold_left]; [lia|].
  rewrite IH, (IH (1 * f i)). ring.
Qed.
Lemma prod_cons : forall f i is, prod f (i :: is) = f i * prod f is.
Proof. intros. unfold prod at 1. cbn [fold_left]. rewrite fold_prod. ring. Qed.
Lemma prod_app : forall f l m, prod f (l ++ m) = prod f l * prod f m.
Proof. intros. unfold prod at 1. rewrite fold_left_app. apply fold_prod. Qed.
Lemma prod_pos : forall f is, (forall i, In i is -> 1 <= f i) -> 1 <= prod f is.
Proof.
  intros f is. induction is as [|i is IH]; intros H; [unfold prod; cbn; lia|]. rewrite prod_cons.
  pose proof (H i (or_introl eq_refl)). pose proof (IH (fun j Hj => H j (or_intror Hj))). nia.
Qed.

Lemma num_loop_app : forall pr n l m a, num_loop w pr n (l ++ m) a =
  bind (num_loop w pr n l a) (fun b => num_loop w pr n m b).
Proof.
  intros pr n l m. induction l as [|i l IH]; intros a; [reflexivity|]. cbn [num_loop app].
  destruct (fit w pr (n - i)) as [d|]; [|reflexivity]. cbn [bind].
  destruct (fit w pr (a * d)) as [b|]; [|reflexivity]. cbn [bind]. apply IH.
Qed.
(** Positive factors: the exact product, if it fits. *)
Lemma num_loop_fits : forall pr n is a, n < M -> (forall i, In i is -> 1 <= n - i /\ 0 <= i) -> 1 <= a ->
  a * prod (fun i => n - i) is < M -> num_loop w pr n is a = Ok (a * prod (fun i => n - i) is).
Proof.
  intros pr n. induction is as [|i is IH]; intros a Hn H Ha HM; cbn [num_loop].
  - unfold prod. cbn. f_equal. lia.
  - destruct (H i (or_introl eq_refl)) as [H1 H2]. rewrite prod_cons in *.
    assert (P : 1 <= prod (fun i => n - i) is) by (apply prod_pos; intros j Hj; now apply H; right).
    rewrite fit_ok by lia. cbn [bind].
    rewrite fit_ok by nia. cbn [bind]. rewrite IH; [f_equal; ring|lia|intros j Hj; apply H; now right|nia|].
    replace (a * (n - i) * prod (fun i => n - i) is) with (a * ((n - i) * prod (fun i => n - i) is)) by ring. exact HM.
Qed.
Lemma num_loop_panics : forall n is a, (forall i, In i is -> 1 <= n - i /\ 0 <= i) -> 1 <= a < M ->
  M <= a * prod (fun i => n - i) is -> num_loop w Debug n is a = Panic.
Proof.
  intros n. induction is as [|i is IH]; intros a H Ha HM; cbn [num_loop].
  - unfold prod in HM. cbn in HM. lia.
  - destruct (H i (or_introl eq_refl)) as [H1 H2]. rewrite prod_cons in HM.
    destruct (Z.lt_ge_cases (n - i) M) as [L|L]; [rewrite fit_ok by lia|now rewrite fit_debug_panic by lia].
    cbn [bind]. destruct (Z.lt_ge_cases (a * (n - i)) M) as [L'|L']; [rewrite fit_ok by nia|now rewrite fit_debug_panic by lia].
    cbn [bind]. apply IH; [intros j Hj; apply H; now right|nia|]. nia.
Qed.
Lemma num_loop_release : forall n is a, num_loop w Release n is (a mod M) = Ok ((a * prod (fun i => n - i) is) mod M).
Proof.
  pose proof M_pos as HM. intros n. induction is as [|i is IH]; intros a; cbn [num_loop].
  - unfold prod. cbn. now rewrite Z.mul_1_r.
  - rewrite !fit_release. cbn [bind]. rewrite fit_release. cbn [bind]. rewrite prod_cons.
    rewrite <- Z.mul_mod by lia. rewrite IH. f_equal. f_equal. ring.
Qed.
Lemma fact_loop_fits : forall pr is a, (forall i, In i is -> 1 <= i) -> 1 <= a ->
  a * prod (fun i => i) is < M -> fact_loop w pr is a = Ok (a * prod (fun i => i) is).
Proof.
  intros pr. induction is as [|i is IH]; intros a H Ha HM; cbn [fact_loop].
  - unfold prod. cbn. f_equal. lia.
  - pose proof (H i (or_introl eq_refl)) as H1. rewrite prod_cons in *.
    assert (P : 1 <= prod (fun i => i) is) by (apply prod_pos; intros j Hj; now apply H; right).
    rewrite fit_ok by nia. cbn [bind]. rewrite IH; [f_equal; ring|intros j Hj; apply H; now right|nia|].
    replace (a * i * prod (fun i => i) is) with (a * (i * prod (fun i => i) is)) by ring. exact HM.
Qed.
Lemma fact_loop_panics : forall is a, (forall i, In i is -> 1 <= i) -> 1 <= a < M ->
  M <= a * prod (fun i => i) is -> fact_loop w Debug is a = Panic.
Proof.
  induction is as [|i is IH]; intros a H Ha HM; cbn [fact_loop].
  - unfold prod in HM. cbn in HM. lia.
  - pose proof (H i (or_introl eq_refl)) as H1. rewrite prod_cons in HM.
    destruct (Z.lt_ge_cases (a * i) M) as [L'|L']; [rewrite fit_ok by nia|now rewrite fit_debug_panic by lia].
    cbn [bind]. apply IH; [intros j Hj; apply H; now right|nia|]. nia.
Qed.
Lemma fact_loop_release : forall is a, fact_loop w Release is (a mod M) = Ok ((a * prod (fun i => i) is) mod M).
Proof.
  pose proof M_pos as HM. induction is as [|i is IH]; intros a; cbn [fact_loop].
  - unfold prod. cbn. now rewrite Z.mul_1_r.
  - rewrite fit_release. cbn [bind]. rewrite prod_cons. rewrite Z.mul_mod_idemp_l by lia. rewrite IH.
    f_equal. f_equal. ring.
Qed.

Lemma range_in : forall lo k i, In i (range lo (Z.of_nat k)) -> lo <= i < Z.of_nat k.
Proof.
  intros lo k i H. unfold range in H. apply in_map_iff in H. destruct H as (j & <- & H). apply in_seq in H. lia.
Qed.
Lemma range_S : forall lo k, lo <= Z.of_nat k -> range lo (Z.of_nat (S k)) = range lo (Z.of_nat k) ++ [Z.of_nat k].
Proof.
  intros lo k H. unfold range. replace (Z.to_nat (Z.of_nat (S k) - lo)) with (S (Z.to_nat (Z.of_nat k - lo))) by lia.
  rewrite seq_S, map_app. cbn [map]. f_equal. f_equal. lia.
Qed.
Lemma num_prod : forall n k, (1 <= k)%nat -> n * prod (fun i => n - i) (range 1 (Z.of_nat k)) = falling n k.
Proof.
  intros n k H. induction H as [|k H IH]; [change (n * 1 = 1 * (n - 0)); ring|].
  rewrite range_S, prod_app by lia. cbn [falling]. rewrite <- IH.
  unfold prod at 2. cbn [fold_left]. ring.
Qed.
Lemma fact_prod : forall k, (1 <= k)%nat -> Z.of_nat k * prod (fun i => i) (range 2 (Z.of_nat k)) = fact k.
Proof.
  intros k H. induction H as [|k H IH]; [reflexivity|]. cbn [fact].
  destruct (Nat.eq_dec k 1) as [->|N]; [reflexivity|].
  rewrite range_S, prod_app by lia. rewrite <- IH. unfold prod at 2. cbn [fold_left]. ring.
Qed.

Lemma factorial_fits : forall pr k, (1 <= k)%nat -> fact k < M -> factorial w pr (Z.of_nat k) = Ok (fact k).
Proof.
  intros pr k H HM. unfold factorial. rewrite fact_loop_fits; [now rewrite fact_prod|..].
  - intros i Hi. apply range_in in Hi. lia.
  - lia.
  - now rewrite fact_prod.
Qed.
Lemma factorial_panics : forall k, (1 <= k)%nat -> Z.of_nat k < M -> M <= fact k -> factorial w Debug (Z.of_nat k) = Panic.
Proof.
  intros k H Hk HM. unfold factorial. apply fact_loop_panics.
  - intros i Hi. apply range_in in Hi. lia.
  - lia.
  - now rewrite fact_prod.
Qed.
Lemma factorial_release : forall k, (1 <= k)%nat -> Z.of_nat k < M -> factorial w Release (Z.of_nat k) = Ok (fact k mod M).
Proof.
  intros k H Hk. unfold factorial. rewrite <- (Z.mod_small (Z.of_nat k) M) at 2 by lia.
  rewrite fact_loop_release. now rewrite fact_prod.
Qed.

Lemma blades_zero : forall pr n, number_of_basis_blades w pr n 0 = Panic.
Proof. reflexivity. Qed.
Lemma blades_value : forall pr n k, (1 <= k <= n)%nat -> falling (Z.of_nat n) k < M ->
  number_of_basis_blades w pr (Z.of_nat n) (Z.of_nat k) = Ok (binom n k).
Proof.
  intros pr n k H HM. unfold number_of_basis_blades, binomial_coefficient.
  assert (Hn : Z.of_nat n <= falling (Z.of_nat n) k).
  { rewrite <- num_prod by lia.
    assert (1 <= prod (fun i => Z.of_nat n - i) (range 1 (Z.of_nat k))); [|nia].
    apply prod_pos. intros i Hi. apply range_in in Hi. lia. }
  rewrite num_loop_fits; [|lia|intros i Hi; apply range_in in Hi; lia|lia|rewrite num_prod; lia].
  cbn [bind]. pose proof (fact_falling n k ltac:(lia)) as F. pose proof (fact_pos k) as P.
  rewrite factorial_fits by lia. cbn [bind]. rewrite num_prod, falling_binom by lia.
  destruct (Z.eqb_spec (fact k) 0); [lia|]. f_equal. rewrite Z.mul_comm. apply Z.div_mul. lia.
Qed.
Lemma blades_overflow : forall n k, (1 <= k <= n)%nat -> Z.of_nat n < M -> M <= falling (Z.of_nat n) k ->
  number_of_basis_blades w Debug (Z.of_nat n) (Z.of_nat k) = Panic.
Proof.
  intros n k H Hn HM. unfold number_of_basis_blades, binomial_coefficient.
  rewrite num_loop_panics; [reflexivity|intros i Hi; apply range_in in Hi; lia|lia|now rewrite num_prod by lia].
Qed.
Lemma blades_above : forall n, Z.of_nat (S n) < M ->
  number_of_basis_blades w Debug (Z.of_nat n) (Z.of_nat (S n)) = if Z.ltb (fact (S n)) M then Ok 0 else Panic.
Proof.
  intros n Hn. unfold number_of_basis_blades, binomial_coefficient. destruct n as [|n].
  - change (num_loop w Debug (Z.of_nat 0) (range 1 (Z.of_nat 1)) (Z.of_nat 0)) with (Ok 0). cbn [bind].
    destruct (Z.ltb_spec (fact 1) M) as [L|L].
    + rewrite factorial_fits by lia. reflexivity.
    + now rewrite factorial_panics by lia.
  - rewrite range_S, num_loop_app by lia.
    destruct (Z.lt_ge_cases (falling (Z.of_nat (S n)) (S n)) M) as [L|L].
    + rewrite num_loop_fits; [|lia|intros i Hi; apply range_in in Hi; lia|lia|rewrite num_prod; lia].
      cbn [bind num_loop]. rewrite Z.sub_diag, fit_ok by (pose proof M_pos; lia). cbn [bind].
      rewrite Z.mul_0_r, fit_ok by (pose proof M_pos; lia). cbn [bind].
      destruct (Z.ltb_spec (fact (S (S n))) M) as [L'|L'].
      * rewrite factorial_fits by lia. cbn [bind]. pose proof (fact_pos (S (S n))).
        destruct (Z.eqb_spec (fact (S (S n))) 0); [lia|]. reflexivity.
      * now rewrite factorial_panics by lia.
    + rewrite num_loop_panics; [|intros i Hi; apply range_in in Hi; lia|lia|rewrite num_prod; lia].
      cbn [bind]. destruct (Z.ltb_spec (fact (S (S n))) M) as [L'|L']; [|reflexivity].
      rewrite falling_full in L. change (fact (S (S n))) with (Z.of_nat (S (S n)) * fact (S n)) in L'.
      pose proof (fact_pos (S n)). nia.
Qed.
Lemma blades_far_above : forall n k, (n + 2 <= k)%nat -> Z.of_nat n < M ->
  number_of_basis_blades w Debug (Z.of_nat n) (Z.of_nat k) = Panic.
Proof.
  intros n k H Hn. unfold number_of_basis_blades, binomial_coefficient.
  assert (E : num_loop w Debug (Z.of_nat n) (range 1 (Z.of_nat k)) (Z.of_nat n) = Panic); [|now rewrite E].
  assert (K : num_loop w Debug (Z.of_nat n) (range 1 (Z.of_nat (n + 2))) (Z.of_nat n) = Panic).
  { replace (n + 2)%nat with (S (S n)) by lia. rewrite range_S, num_loop_app by lia.
    destruct (num_loop w Debug (Z.of_nat n) (range 1 (Z.of_nat (S n))) (Z.of_nat n)); [|reflexivity].
    cbn [bind num_loop]. now rewrite fit_debug_panic by lia. }
  induction H as [|k H IH]; [exact K|]. rewrite range_S, num_loop_app, IH by lia. reflexivity.
Qed.
Lemma blades_release : forall n k, (1 <= k)%nat -> Z.of_nat n < M -> Z.of_nat k < M ->
  number_of_basis_blades w Release (Z.of_nat n) (Z.of_nat k) =
  if Z.eqb (fact k mod M) 0 then Panic else Ok ((falling (Z.of_nat n) k mod M) / (fact k mod M)).
Proof.
  intros n k H Hn Hk. unfold number_of_basis_blades, binomial_coefficient.
  assert (E : num_loop w Release (Z.of_nat n) (range 1 (Z.of_nat k)) (Z.of_nat n) = Ok (falling (Z.of_nat n) k mod M)).
  { rewrite <- num_prod by assumption. rewrite <- num_loop_release. now rewrite Z.mod_small by lia. }
  rewrite E. cbn [bind]. rewrite factorial_release by assumption. reflexivity.
Qed.

Lemma total_fits : forall pr dim, 0 <= dim < 2 ^ 32 -> dim < w -> total_number_of_basis_blades w pr dim = Ok (2 ^ dim).
Proof.
  intros pr dim H L. unfold total_number_of_basis_blades. rewrite Z.mod_small by assumption.
  apply fit_ok. split; [apply Z.pow_nonneg; lia|]. apply Z.pow_lt_mono_r; lia.
Qed.
Lemma total_overflow : forall dim, w <= dim mod 2 ^ 32 -> total_number_of_basis_blades w Debug dim = Panic /\
  total_number_of_basis_blades w Release dim = Ok 0.
Proof.
  intros dim L. unfold total_number_of_basis_blades. split.
  - apply fit_debug_panic. intros [_ K]. unfold M in K. apply Z.pow_lt_mono_r_iff in K; lia.
  - rewrite fit_release. f_equal. unfold M.
    replace (dim mod 2 ^ 32) with (dim mod 2 ^ 32 - w + w) by ring. rewrite Z.pow_add_r by lia. apply Z.mod_mul.
    apply Z.pow_nonzero; lia.
Qed.
Lemma fact_pow : forall n, (4 <= n)%nat -> 2 ^ Z.of_nat n <= fact n.
Proof.
  intros n H. induction H as [|n H IH]; [vm_compute; discriminate|].
  rewrite Nat2Z.inj_succ, Z.pow_succ_r by lia. cbn [fact]. nia.
Qed.
Lemma blades_sum : forall pr n, 4 <= w -> fact n < M -> Z.of_nat n < 2 ^ 32 ->
  exists counts, map (fun k => number_of_basis_blades w pr (Z.of_nat n) (Z.of_nat k)) (seq 1 n) = map Ok counts /\
  counts = map (binom n) (seq 1 n) /\
  total_number_of_basis_blades w pr (Z.of_nat n) = Ok (1 + fold_right Z.add 0 counts).
Proof.
  intros pr n W HM Hn. exists (map (binom n) (seq 1 n)). split; [|split; [reflexivity|]].
  - rewrite map_map. apply map_ext_in. intros k Hk. apply in_seq in Hk. apply blades_value; [lia|].
    pose proof (falling_le_fact n k ltac:(lia)). lia.
  - assert (L : Z.of_nat n < w).
    { destruct (le_lt_dec 4 n) as [G|G]; [|lia]. pose proof (fact_pow n G) as P.
      assert (2 ^ Z.of_nat n < 2 ^ w) by (unfold M in HM; lia). apply Z.pow_lt_mono_r_iff in H; lia. }
    rewrite total_fits by lia. f_equal. rewrite <- row_sum_pow.
    assert (G : forall m, row_sum n m = 1 + fold_right Z.add 0 (map (binom n) (seq 1 m))); [|apply G].
    induction m as [|m IHm]; [now destruct n|]. rewrite seq_S, map_app, fold_right_app. cbn [row_sum]. rewrite IHm.
    cbn [map fold_right Nat.add].
    assert (A : forall l a, fold_right Z.add a l = fold_right Z.add 0 l + a).
    { induction l as [|x l IHl]; intros a; cbn [fold_right]; [lia|]. rewrite IHl. lia. }
    rewrite (A _ (binom n (S m) + 0)). lia.
Qed.
End Code.
Lemma binom_diag : forall n, binom n n = 1.
Proof. induction n as [|n IH]; [reflexivity|]. cbn [binom]. rewrite IH, binom_zero by lia. reflexivity. Qed.
Lemma fact_split : forall n k, (k <= n)%nat -> fact n = falling (Z.of_nat n) k * fact (n - k).
Proof.
  intros n k. induction k as [|k IH]; intros H; [rewrite Nat.sub_0_r; cbn [falling]; lia|].
  rewrite IH by lia. replace (n - k)%nat with (S (n - S k)) by lia. cbn [falling fact].
  replace (Z.of_nat (S (n - S k))) with (Z.of_nat n - Z.of_nat k) by lia. ring.
Qed.
Lemma binomial_spec :
  (forall n k, falling (Z.of_nat n) k = fact k * binom n k) /\
  (forall n, binom n n = 1) /\ (forall n k, (n < k)%nat -> binom n k = 0) /\
  (forall n k, (k <= n)%nat -> fact n = fact k * fact (n - k) * binom n k).
Proof.
  split; [exact falling_binom|]. split; [exact binom_diag|]. split; [exact binom_zero|].
  intros n k H. rewrite (fact_split n k H), falling_binom. ring.
Qed.
