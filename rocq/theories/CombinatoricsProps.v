(** C05 (64-bit rationals), C07 (factorial, binomial), C08 (permutation sign), C09 (partitions). *)
From Coq Require Import ZArith List Bool Lia Sorted Permutation Factorial.
From Verif Require Import Res RationalModel RationalSpec Rational64Model Rational64Proofs
  CombinatoricsModel CombinatoricsProofs SignProofs
  PartitionsModel PartitionsSpec PartitionsProofs.
Import ListNotations.
Local Open Scope Z_scope.

(** C05: with 64-bit integers each operation returns the exact result or is UB by overflow. *)
Theorem C05_checked_sound : forall l r,
  (radd64 l r = Ok (rat_add l r) \/ radd64 l r = UB) /\
  (rsub64 l r = Ok (rat_sub l r) \/ rsub64 l r = UB) /\
  (rmul64 l r = Ok (rat_mul l r) \/ rmul64 l r = UB) /\
  (rdiv64 l r = Ok (rat_div l r) \/ rdiv64 l r = UB) /\
  (rneg64 l = Ok (rat_neg l) \/ rneg64 l = UB) /\
  (forall n d, make64 n d = Ok (rat_make n d) \/ make64 n d = UB).
Proof.
  exact (fun l r => conj (radd64_sound l r) (conj (rsub64_sound l r) (conj (rmul64_sound l r)
    (conj (rdiv64_sound l r) (conj (rneg64_sound l) make64_sound))))).
Qed.
Print Assumptions C05_checked_sound.

(** C05: operands bounded by 2^31-1 in absolute value never overflow. *)
Theorem C05_small_operands_exact : forall l r,
  Z.abs (num l) <= 2 ^ 31 - 1 /\ Z.abs (den l) <= 2 ^ 31 - 1 ->
  Z.abs (num r) <= 2 ^ 31 - 1 /\ Z.abs (den r) <= 2 ^ 31 - 1 ->
  radd64 l r = Ok (rat_add l r) /\ rsub64 l r = Ok (rat_sub l r) /\
  rmul64 l r = Ok (rat_mul l r) /\ rdiv64 l r = Ok (rat_div l r) /\ rneg64 l = Ok (rat_neg l).
Proof. exact small_complete. Qed.
Print Assumptions C05_small_operands_exact.

(** C05: for + overflow occurs exactly when an intermediate value does not fit. *)
Theorem C05_add_overflow_iff : forall l r, radd64 l r = UB <->
  ~ (in64 (den r * num l) /\ in64 (num r * den l) /\ in64 (den r * num l + num r * den l) /\
     in64 (den r * den l) /\ Z.abs (den r * num l + num r * den l) <= 2 ^ 63 - 1
     /\ Z.abs (den r * den l) <= 2 ^ 63 - 1).
Proof. exact radd64_ub. Qed.
Print Assumptions C05_add_overflow_iff.
(** C05: the same for -, *, / and construction. *)
Theorem C05_overflow_iff : forall l r,
  (rsub64 l r = UB <->
    ~ (in64 (den r * num l) /\ in64 (num r * den l) /\
       Z.abs (den r * num l - num r * den l) <= 2 ^ 63 - 1 /\ Z.abs (den r * den l) <= 2 ^ 63 - 1)) /\
  (rmul64 l r = UB <-> ~ (Z.abs (num l * num r) <= 2 ^ 63 - 1 /\ Z.abs (den l * den r) <= 2 ^ 63 - 1)) /\
  (rdiv64 l r = UB <-> ~ (Z.abs (num l * den r) <= 2 ^ 63 - 1 /\ Z.abs (den l * num r) <= 2 ^ 63 - 1)) /\
  (forall n d, make64 n d = UB <-> ~ (Z.abs n <= 2 ^ 63 - 1 /\ Z.abs d <= 2 ^ 63 - 1)).
Proof. exact (fun l r => conj (rsub64_ub l r) (conj (rmul64_ub l r) (conj (rdiv64_ub l r) make64_ub))). Qed.
Print Assumptions C05_overflow_iff.

Example C05_nonvacuous :
  radd64 (mkR 1 2147483647) (mkR 1 2147483646) = Ok (mkR 4294967293 4611686011984936962) /\
  radd64 (mkR 1 4294967296) (mkR 1 4294967295) = UB /\
  rmul64 (mkR 4294967296 3) (mkR 4294967296 5) = UB.
Proof. vm_compute. auto. Qed.

(** C07: factorial is n!. *)
Theorem C07_factorial : forall n : nat, factorial (Z.of_nat n) = Z.of_nat (fact n).
Proof. exact factorial_fact. Qed.
Print Assumptions C07_factorial.

(** C07: binomial(n,k) k! (n-k)! = n!, and 0 for k > n. *)
Theorem C07_binomial : forall n k : nat,
  ((k <= n)%nat -> binomial (Z.of_nat n) (Z.of_nat k) * (Z.of_nat (fact k) * Z.of_nat (fact (n - k)))
                   = Z.of_nat (fact n)) /\
  ((n < k)%nat -> binomial (Z.of_nat n) (Z.of_nat k) = 0).
Proof.
  exact (fun n k => conj (binomial_factorials n k)
    (fun H => eq_trans (binomial_choose n k) (f_equal Z.of_nat (choose_gt n k H)))).
Qed.
Print Assumptions C07_binomial.

(** C07: the intermediate divisions of binomial are exact. *)
Theorem C07_binomial_division_exact : forall n i : nat, (1 <= i)%nat -> (i < n)%nat ->
  (Z.of_nat (S i) | binomial (Z.of_nat n) (Z.of_nat i) * (Z.of_nat n - Z.of_nat (S i) + 1)).
Proof. exact binomial_division_exact. Qed.
Print Assumptions C07_binomial_division_exact.

(** C07: 64-bit factorial is right up to 20 and overflows beyond. *)
Theorem C07_factorial64 : forall n,
  (0 <= n <= 20 -> factorial64 n = Ok (factorial n)) /\ (20 < n -> factorial64 n = UB).
Proof. exact (fun n => conj (factorial64_small n) (factorial64_large n)). Qed.
Print Assumptions C07_factorial64.

(** C07: 64-bit binomial is exact or overflows; it never overflows for n, k <= 61. *)
Theorem C07_binomial64 : forall n k,
  (binomial64 n k = Ok (binomial n k) \/ binomial64 n k = UB) /\
  (0 <= n <= 61 -> 0 <= k <= 61 -> binomial64 n k = Ok (binomial n k)).
Proof. exact (fun n k => conj (binomial64_sound n k) (binomial64_small n k)). Qed.
Print Assumptions C07_binomial64.

Example C07_nonvacuous : binomial 10 4 = 210 /\ binomial 10 7 = 120 /\ factorial 5 = 120 /\ binomial64 62 31 = UB.
Proof. vm_compute. auto. Qed.

(** C08: sorted lists have sign 1; exchanging any two different entries flips the sign. *)
Theorem C08_sign_alternating :
  (forall l, StronglySorted Z.le l -> permutation_sign l = 1) /\
  (forall l1 x m y l2, NoDup (l1 ++ x :: m ++ y :: l2) ->
     permutation_sign (l1 ++ x :: m ++ y :: l2) = - permutation_sign (l1 ++ y :: m ++ x :: l2)).
Proof. exact (conj psign_sorted psign_exchange_nodup). Qed.
Print Assumptions C08_sign_alternating.

(** C08: it is the only such function: anything negated by exchanging different neighbours is
    permutation_sign times its value on the sorted list. *)
Theorem C08_sign_unique : forall f : list Z -> Z,
  (forall l1 x y l2, x <> y -> NoDup (l1 ++ x :: y :: l2) ->
     f (l1 ++ x :: y :: l2) = - f (l1 ++ y :: x :: l2)) ->
  forall l l', NoDup l -> Permutation l l' -> StronglySorted Z.le l' -> f l = permutation_sign l * f l'.
Proof. exact alternating_sorted_any. Qed.
Print Assumptions C08_sign_unique.

Example C08_nonvacuous : NoDup [5; 2; 9; 1] /\ permutation_sign [5; 2; 9; 1] = 1 /\ permutation_sign [2; 5; 9; 1] = -1.
Proof. split; [repeat constructor; simpl; intuition lia | auto]. Qed.

(** C09: for n >= 0 and maxlen >= 1 (any maxlen if n >= 2) the call returns, without UB, a list
    without repetition of exactly the partitions of n with at most maxlen parts. *)
Theorem C09_partitions_exact : forall n maxlen, 0 <= n -> 1 <= maxlen \/ 1 < n ->
  exists L f0, (forall fuel, (f0 <= fuel)%nat -> integer_partitions fuel n maxlen = Ok L) /\
    (forall q, In q L <-> is_partition n q /\ Z.of_nat (length q) <= maxlen) /\ NoDup L.
Proof. exact integer_partitions_exact. Qed.
Print Assumptions C09_partitions_exact.

Theorem C09_partitions_negative : forall fuel n maxlen, n < 0 -> integer_partitions fuel n maxlen = Ok [].
Proof. exact integer_partitions_negative. Qed.
Print Assumptions C09_partitions_negative.

Example C09_nonvacuous : integer_partitions 50 5 3 = Ok [[2; 2; 1]; [3; 1; 1]; [3; 2]; [4; 1]; [5]].
Proof. vm_compute. reflexivity. Qed.
(** The guard on maxlen is needed: integer_partitions(1, 0) returns [[1]]. *)
Example C09_guard_needed : integer_partitions 5 1 0 = Ok [[1]].
Proof. reflexivity. Qed.
