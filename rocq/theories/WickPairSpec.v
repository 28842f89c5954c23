(** Specification for C48: products in which no two operators are linked by more than two equal contractions. *)
From Coq Require Import ZArith List.
From Verif Require Import Res RegistryModel CoreModel OperatorModel WickSearchModel WickSearchSpec.
Local Open Scope Z_scope.
(** Two operators can be contracted in an occupied space as often as the left one creates and the right one annihilates in
    it, and in an unoccupied space as often as the left one annihilates and the right one creates in it: at most twice. *)
Definition at_most_double (st : osi) (ops : oprod) : Prop :=
  forall A B s, (A < B < length ops)%nat -> is_space st s ->
    (stype st s = Some Occupied -> ops_cre ops A s <= 2 \/ ops_ann ops B s <= 2) /\
    (stype st s = Some Unoccupied -> ops_ann ops A s <= 2 \/ ops_cre ops B s <= 2).
