(** Decimal strings of integers ([std::to_string], [std::format("{}", int)], [std::stoi] of a run of digits). *)
From Coq Require Import ZArith List Bool Ascii.
From Verif Require Import Res RegistryModel.
Import ListNotations.
Local Open Scope Z_scope.

(** Not functions of /repo: the C++ library's conversion of a non-negative [int] to its shortest decimal string.  [fuel]: number
    of digits. *)
Definition digit (d : Z) : ascii := ascii_of_N (Z.to_N (48 + d)).
Fixpoint digits (fuel : nat) (n : Z) : text :=
  match fuel with
  | O => []
  | S f => if n <? 10 then [digit n] else digits f (n / 10) ++ [digit (n mod 10)]
  end.
Definition dec_text (n : Z) : text :=
  if n <? 0 then "-"%char :: digits (Z.to_nat (- n)) (- n) else digits (S (Z.to_nat n)) n.

(** [\d] and the value of a run of digits. *)
Definition is_digit (c : ascii) : bool := (48 <=? N_of_ascii c)%N && (N_of_ascii c <=? 57)%N.
Definition digit_val (c : ascii) : Z := Z.of_N (N_of_ascii c) - 48.
Definition dec_value (l : text) : Z := fold_left (fun a c => 10 * a + digit_val c) l 0.
