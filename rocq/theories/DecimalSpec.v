(** Specification for decimal coefficients (C65). *)
From Coq Require Import ZArith QArith Qabs Qpower List Bool Ascii.
From Verif Require Import Res RegistryModel RationalModel RationalSpec DecModel TextModel TextSpec.
Import ListNotations.
Local Open Scope Q_scope.

(** A number with a significand of at most 53 bits. *)
Definition is_double (x : Q) : Prop := exists m e : Z, (Z.abs m < 2 ^ 53)%Z /\ x == inject_Z m * 2 ^ e.
(** [x] is a closest 53-bit number to [q]. *)
Definition nearest_double (x q : Q) : Prop := is_double x /\ forall y, is_double y -> Qabs (x - q) <= Qabs (y - q).
(** [s] is the decimal number [x] with [k] places after the point. *)
Inductive reads_decimal (k : nat) : text -> Q -> Prop :=
| rd_intro sg a b v : sign_text sg v -> a <> [] -> all_of is_digit a -> all_of is_digit b -> length b = k ->
    reads_decimal k (sg ++ a ++ ["."%char] ++ b) (inject_Z v * (inject_Z (dec_value (a ++ b)) / inject_Z (10 ^ Z.of_nat k))).
