(** Specification vocabulary for rational numbers: value, canonical form, expression trees. *)
From Coq Require Import ZArith QArith.
From Verif Require Import RationalModel.
Local Open Scope Z_scope.

(** The rational number denoted by a numerator/denominator pair, in the standard library's Q. *)
Definition Qval (r : rational) : Q := (inject_Z (num r) / inject_Z (den r))%Q.

(** Canonical form: positive denominator, lowest terms. *)
Definition canonical (r : rational) : Prop := 0 < den r /\ Z.gcd (num r) (den r) = 1.

(** ** Expression trees over the rational API *)
Inductive rexp :=
| RMake (n d : Z) | RInt (n : Z)
| RAdd (a b : rexp) | RSub (a b : rexp) | RMul (a b : rexp) | RNeg (a : rexp)
| RDiv (a b : rexp).

(** What the code computes. *)
Fixpoint reval (e : rexp) : rational :=
  match e with
  | RMake n d => rat_make n d
  | RInt n => rat_of_Z n
  | RAdd a b => rat_add (reval a) (reval b)
  | RSub a b => rat_sub (reval a) (reval b)
  | RMul a b => rat_mul (reval a) (reval b)
  | RNeg a => rat_neg (reval a)
  | RDiv a b => rat_div (reval a) (reval b)
  end.

(** What it should mean. *)
Fixpoint rmean (e : rexp) : Q :=
  match e with
  | RMake n d => (inject_Z n / inject_Z d)%Q
  | RInt n => inject_Z n
  | RAdd a b => (rmean a + rmean b)%Q
  | RSub a b => (rmean a - rmean b)%Q
  | RMul a b => (rmean a * rmean b)%Q
  | RNeg a => (- rmean a)%Q
  | RDiv a b => (rmean a / rmean b)%Q
  end.

(** No zero denominator is ever given, divisors are nonzero ([allow_neg = true]) or positive. *)
Fixpoint rsafe (allow_neg : bool) (e : rexp) : Prop :=
  match e with
  | RMake n d => d <> 0
  | RInt n => True
  | RAdd a b | RSub a b | RMul a b => rsafe allow_neg a /\ rsafe allow_neg b
  | RNeg a => rsafe allow_neg a
  | RDiv a b => rsafe allow_neg a /\ rsafe allow_neg b /\
      if allow_neg then ~ (rmean b == 0)%Q else (0 < rmean b)%Q
  end.

