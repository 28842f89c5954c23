(** Model of wicked/helpers/rational.{h,cc}. *)
From Coq Require Import ZArith Bool.
Local Open Scope Z_scope.

(** rational.h:54-58 -- private data [numerator_], [denominator_].
    Simplification: [rational_t] is unbounded [Z] here (rational.h:13, boost int1024_t, with no
    overflow); the 64-bit build (rational.h:15) is [Rational64Model.v]. *)
Record rational := mkR { num : Z; den : Z }.

(** rational.cc:191-203, [rational::reduce].  [std::gcd] is non-negative like [Z.gcd];
    C++ integer division truncates, hence [Z.quot]. *)
Definition reduce (r : rational) : rational :=
  let g := Z.gcd (num r) (den r) in
  if 1 <? g then mkR (Z.quot (num r) g) (Z.quot (den r) g) else r.

(** rational.cc:10, default constructor. *)
Definition rat0 : rational := mkR 0 1.

(** rational.cc:12-20, construction from one integer. *)
Definition rat_of_Z (n : Z) : rational := mkR n 1.

(** rational.cc:22-28, construction from numerator and denominator. *)
Definition rat_make (n d : Z) : rational :=
  reduce (mkR (if d <? 0 then - n else n) (if d <? 0 then - d else d)).

(** rational.cc:40-42, unary minus. *)
Definition rat_neg (r : rational) : rational := rat_make (- num r) (den r).

(** rational.cc:44-49, [operator+=] (and [operator+], rational.cc:155-158). *)
Definition rat_add (l r : rational) : rational :=
  reduce (mkR (den r * num l + num r * den l) (den r * den l)).

(** rational.cc:51-56, [operator-=] (and [operator-], rational.cc:160-163). *)
Definition rat_sub (l r : rational) : rational :=
  reduce (mkR (den r * num l - num r * den l) (den r * den l)).

(** rational.cc:58-63, [operator*=] (and [operator*], rational.cc:165-168). *)
Definition rat_mul (l r : rational) : rational :=
  reduce (mkR (num l * num r) (den l * den r)).

(** rational.cc:65-70, [operator/=] with an argument distinct from [*this]
    (always the case for [operator/], rational.cc:170-173, whose left operand is a copy). *)
Definition rat_div (l r : rational) : rational :=
  reduce (mkR (num l * den r) (den l * num r)).

(** rational.cc:65-70 when the argument is [*this] itself ([r /= r]): line 66 has already
    overwritten [numerator_] when line 67 reads [rhs.numerator()]. *)
Definition rat_div_self (r : rational) : rational :=
  let n' := num r * den r in
  reduce (mkR n' (den r * n')).

(** rational.cc:175-180, [operator==]. *)
Definition rat_eqb (l r : rational) : bool :=
  if (num l =? 0) && (num r =? 0) then true
  else (num l =? num r) && (den l =? den r).

(** helpers.h:60,70 compare with the literal 0: [value == 0] converts 0 by the [int]
    constructor (rational.cc:12-15). *)
Definition rat_is0 (r : rational) : bool := rat_eqb r (rat_of_Z 0).
