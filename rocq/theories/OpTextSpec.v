(** Specification for C66. *)
From Coq Require Import ZArith List Bool Ascii.
From Verif Require Import Res RegistryModel CoreModel RationalModel RationalSpec AlgebraModel OperatorModel OperatorSpec TextModel TextSpec ExprTextModel.
Import ListNotations.
Local Open Scope Z_scope.

(** Every space is labelled by a letter, and there are at most 8 spaces (C32). *)
Definition lettered (st : osi) : Prop := (nsp st <= 8)%nat /\ forall s l, space_label st s = Ok l -> letter l.
(** An operator of the registry with non-negative counts and a label without brace and line break. *)
Definition printable_op (st : osi) (o : oper) : Prop :=
  op_valid st o /\ nonneg_counts st o /\ ~ In "{"%char (op_label o) /\ ~ In newline (op_label o).
Definition printable_sum (st : osi) (e : opexpr) : Prop := Forall (fun x => Forall (printable_op st) (fst x) /\ canonical (snd x)) e.
