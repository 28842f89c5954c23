(** Model of [Algebra::norm] (wicked/helpers/algebra.hpp:53-61; Python: api/expression_api.cc:65). *)
From Coq Require Import ZArith QArith Qabs Qround Qpower List Bool.
From Verif Require Import Res RationalModel CoreModel AlgebraModel DecimalModel.
Import ListNotations.
Local Open Scope Q_scope.

(** [std::sqrt(double)] is correctly rounded (IEEE 754): with [2^(52+u) <= sqrt x < 2^(53+u)], the integer closest to [sqrt (x / 4^u)], which is
    [floor ((sqrt (4 x / 4^u) + 1) / 2)].  (No square root of a 53-bit number is half-way between two 53-bit numbers.)  As in DecimalModel the
    range of the exponent is not modelled. *)
Definition sqrt_double (x : Q) : Q :=
  let u := (exponent x / 2 - 52)%Z in inject_Z ((Z.sqrt (Qfloor (4 * (x * 2 ^ (- (2 * u))))) + 1) / 2) * 2 ^ u.
(** algebra.hpp:55-59: [result += (c * c).to_double()]; the sum rounds. *)
Definition norm_sum {K} (m : emap K) : Q := fold_left (fun r x => round_double (r + to_double (rat_mul (snd x) (snd x)))) m 0.
(** algebra.hpp:54-61. *)
Definition norm {K} (m : emap K) : Q := sqrt_double (norm_sum m).
