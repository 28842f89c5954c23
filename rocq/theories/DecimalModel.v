(** Model of the conversion of coefficients to [double] and to decimal text (wicked/helpers/rational.cc:34-36, 150-153; equation.cc:113-115). *)
From Coq Require Import ZArith QArith Qabs Qround Qpower List Bool Ascii.
From Verif Require Import Res RegistryModel RationalModel RationalSpec DecModel.
Import ListNotations.

(** Nearest integer, ties to the even one (the rounding of IEEE arithmetic and of the decimal conversions of the C++ library). *)
Definition round_even (q : Q) : Z :=
  let f := Qfloor q in
  match (q - inject_Z f ?= 1 # 2)%Q with Lt => f | Gt => (f + 1)%Z | Eq => if Z.even f then f else (f + 1)%Z end.
(** The exponent e with 2^e <= q < 2^(e+1), for q > 0. *)
Definition exponent (q : Q) : Z :=
  let k := (Z.log2 (Qnum q) - Z.log2 (Zpos (Qden q)))%Z in if Qle_bool (2 ^ k) q then k else (k - 1)%Z.
(** Rounding to a 53-bit significand.  The range of the exponent of [double] is not modelled: no coefficient below 2^1023 overflows and no
    quotient of such numbers above 2^-1022 is subnormal. *)
Definition round_double (q : Q) : Q := let u := (exponent (Qabs q) - 52)%Z in (inject_Z (round_even (q * 2 ^ (- u))) * 2 ^ u)%Q.
(** rational.cc:34-36: both casts round, and so does the division. *)
Definition to_double (r : rational) : Q := round_double (round_double (inject_Z (num r)) / round_double (inject_Z (den r))).
(** The last [k] decimal digits of a non-negative number. *)
Fixpoint last_digits (k : nat) (n : Z) : text := match k with O => [] | S k' => last_digits k' (n / 10) ++ [digit (n mod 10)] end.
(** [std::format("{:.kf}", x)] and [printf("%.kf", x)]: correct rounding of the exact binary value; the sign is printed even if all digits are 0. *)
Definition fixed (k : nat) (x : Q) : text :=
  let n := round_even (Qabs x * inject_Z (10 ^ Z.of_nat k)) in
  (if Qle_bool 0 x then [] else ["-"%char]) ++ dec_text (n / 10 ^ Z.of_nat k) ++ ["."%char] ++ last_digits k n.
(** equation.cc:114: [std::format("{:.9f}", rhs_factor().to_double())]. *)
Definition einsum_factor (r : rational) : text := fixed 9 (to_double r).
(** rational.cc:150-153: [std::to_string(double)] is [printf("%f")], 6 decimals. *)
Definition ambit_factor (r : rational) : text := fixed 6 (to_double r).
