(** Specification of C76: the part of a sum with a given number of operators. *)
From Coq Require Import ZArith List Bool.
From Verif Require Import Res RegistryModel CoreModel AlgebraModel.
Import ListNotations.
Local Open Scope Z_scope.

(** Number of second-quantized operators of a term. *)
Definition rank_of (t : term) : Z := Z.of_nat (length (tm_ops t)).
(** The terms of a sum with at least [a] and at most [b] operators, in the same order. *)
Definition rank_part (a b : Z) (e : expression) : expression := filter (fun x => (a <=? rank_of (fst x)) && (rank_of (fst x) <=? b)) e.
