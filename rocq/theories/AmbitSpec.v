(** The value of an ambit statement (C64). *)
Set Warnings "-notation-overridden,-ambiguous-paths".
From Coq Require Import ZArith List Bool Ascii String.
From mathcomp Require Import all_ssreflect ssralg.
From Verif Require Import Res RegistryModel CoreModel TextModel EquationModel EquationSpec EinsumSpec EqTextModel EqTextSpec.
Set Implicit Arguments.
Unset Strict Implicit.
Unset Printing Implicit Defensive.
Import GRing.Theory.
Local Open Scope ring_scope.

(** The first character of an index name is its space: the block of a tensor and the range of a summation follow from the names.
    The indices of the left-hand tensor have the values [phi]; all other indices are summed. *)
Definition ambit_value (K : comRingType) (dim : ascii -> nat) (tens : text -> text -> array K) (l : aref) (rs : seq aref) (phi : text -> nat) : K :=
  sum_over text_eqb (fun n => dim (hd zero n))
    (nodup (list_eq_dec ascii_dec) (List.filter (fun n => negb (existsb (text_eqb n) l.2)) (flat_map snd rs))) phi
    (fun phi => \prod_(r <- rs) elem (tens r.1 (List.map (hd zero) r.2)) (List.map phi r.2)).
