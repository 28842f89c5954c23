(** C01-C04: rational arithmetic. *)
From Coq Require Import ZArith QArith Bool Lia.
From Verif Require Import RationalModel RationalSpec RationalProofs.
Local Open Scope Z_scope.

(** C01: [rational(n,d)] has value n/d and is canonical, for every d <> 0. *)
Theorem C01_make_exact_canonical : forall n d, d <> 0 ->
  (Qval (rat_make n d) == inject_Z n / inject_Z d)%Q /\
  0 < den (rat_make n d) /\ Z.gcd (num (rat_make n d)) (den (rat_make n d)) = 1.
Proof. intros n d H. exact (conj (rat_make_val n d H) (rat_make_canonical n d H)). Qed.
Print Assumptions C01_make_exact_canonical.

Example C01_nonvacuous : -6 <> 0 /\ rat_make 4 (-6) = mkR (-2) 3.
Proof. split; [lia | reflexivity]. Qed.

(** C01: a zero denominator is accepted and kept: the result has denominator 0. *)
Theorem C01_make_zero_denominator : forall n, den (rat_make n 0) = 0.
Proof. exact rat_make_zero_den. Qed.
Print Assumptions C01_make_zero_denominator.

(** C02: +, -, *, unary minus on canonical numbers are exact and canonical. *)
Theorem C02_arith_exact : forall a b, canonical a -> canonical b ->
  ((Qval (rat_add a b) == Qval a + Qval b)%Q /\ canonical (rat_add a b)) /\
  ((Qval (rat_sub a b) == Qval a - Qval b)%Q /\ canonical (rat_sub a b)) /\
  ((Qval (rat_mul a b) == Qval a * Qval b)%Q /\ canonical (rat_mul a b)) /\
  ((Qval (rat_neg a) == - Qval a)%Q /\ canonical (rat_neg a)).
Proof. exact rat_arith_exact. Qed.
Print Assumptions C02_arith_exact.

(** C02: for every expression built with the rational API (division by positive numbers only),
    == decides equality of the mathematical values. *)
Theorem C02_expr_eq_iff_value : forall e f, rsafe false e -> rsafe false f ->
  rat_eqb (reval e) (reval f) = true <-> (rmean e == rmean f)%Q.
Proof. exact reval_eqb. Qed.
Print Assumptions C02_expr_eq_iff_value.

Example C02_nonvacuous :
  let e := RSub (RAdd (RMake 1 2) (RMake 1 (-3))) (RDiv (RInt 1) (RInt 6)) in
  rsafe false e /\ rsafe false (RInt 0) /\ rat_eqb (reval e) (reval (RInt 0)) = true.
Proof.
  cbv zeta. split; [|split; [exact I | vm_compute; reflexivity]].
  repeat split; try (intro; discriminate). 
Qed.

(** C03: division is exact for every nonzero divisor; canonical if the divisor is positive. *)
Theorem C03_div_exact : forall a b, canonical a -> canonical b -> num b <> 0 ->
  (Qval (rat_div a b) == Qval a / Qval b)%Q /\ (0 < num b -> canonical (rat_div a b)).
Proof. exact rat_div_exact. Qed.
Print Assumptions C03_div_exact.

(** C03: whole expressions with arbitrary nonzero divisors keep the exact value. *)
Theorem C03_expr_exact : forall e, rsafe true e -> (Qval (reval e) == rmean e)%Q.
Proof. exact (fun e H => proj2 (reval_den_val e H)). Qed.
Print Assumptions C03_expr_exact.

Example C03_nonvacuous : canonical (mkR 3 4) /\ canonical (mkR (-5) 6) /\
  rat_div (mkR 3 4) (mkR (-5) 6) = mkR 9 (-10).
Proof. repeat split. Qed.

(** C04 refuted: for every negative divisor b (and a <> 0) the quotient is not == to the same number
    built by [rational(num(a)*den(b), den(a)*num(b))]. *)
Theorem C04_div_eq_refuted : forall a b, canonical a -> canonical b -> num a <> 0 -> num b < 0 ->
  (Qval (rat_div a b) == Qval (rat_make (num a * den b) (den a * num b)))%Q /\
  rat_eqb (rat_div a b) (rat_make (num a * den b) (den a * num b)) = false.
Proof. exact rat_div_neg_eq_false. Qed.
Print Assumptions C04_div_eq_refuted.

Example C04_witness : rat_eqb (rat_div (rat_of_Z 1) (rat_of_Z (-2))) (rat_make (-1) 2) = false.
Proof. reflexivity. Qed.

(** C04 holds exactly when the divisor is positive (or the dividend zero). *)
Theorem C04_div_eq_pos : forall a b, canonical a -> canonical b -> 0 < num b \/ (num b <> 0 /\ num a = 0) ->
  rat_eqb (rat_div a b) (rat_make (num a * den b) (den a * num b)) = true.
Proof. exact rat_div_pos_eq_true. Qed.
Print Assumptions C04_div_eq_pos.

(** C04 refuted, aliasing: [r /= r] is 1/den(r)-like, not 1, for every canonical r with
    den(r) <> 1, num(r) <> 0. *)
Theorem C04_div_self_refuted : forall r, canonical r -> num r <> 0 -> den r <> 1 ->
  ~ (Qval (rat_div_self r) == 1)%Q /\ (Qval (rat_div_self r) == 1 / inject_Z (den r))%Q.
Proof. exact rat_div_self_wrong. Qed.
Print Assumptions C04_div_self_refuted.
