(** C63: the einsum statements of the terms returned by [contract]. *)
Set Warnings "-notation-overridden,-ambiguous-paths".
From Coq Require Import ZArith List Bool Ascii String Lia.
From mathcomp Require Import all_ssreflect ssralg.
From Verif Require Import Res RegistryModel RegistryProofs RegistryProps CoreModel RationalModel OperatorModel AlgebraModel AlgebraSpec WickSearchModel WickSearchSpec WickEvalModel WickLinearProofs TextModel EquationModel EquationSpec EquationProps TextProps EinsumSpec ContractShapeProps ContractEinsumProofs.
Import GRing.Theory.
Delimit Scope Z_scope with Z.
Local Open Scope ring_scope.

(** Each equation of a result of [contract] on non-empty products of at most 52 legs compiles to a statement that numpy accepts on
    arrays of the right shapes and that adds the value of the term. *)
Theorem C63_einsum : forall fmt o st factor e minrank maxrank r label x, reachable st -> names_ok st ->
  List.Forall (fun y => ops_ok st y.1 /\ y.1 <> [::] /\ (ops_rank y.1 <= 52)%Z) e -> contract_expr o st factor e minrank maxrank (Ok r) -> In x r ->
  exists lhs s sub, tm_tens (eq_lhs (equation_of label x)) = [:: lhs] /\ compile_einsum fmt st (equation_of label x) = Ok s /\
    s = statement_text st (fmt (eq_factor (equation_of label x))) sub lhs (tm_tens x.1) /\
    forall (K : comRingType) (dim : Z -> nat) (tens : text -> text -> array K), (forall t, In t (tm_tens x.1) -> well_shaped st dim tens t) ->
      accepts sub (List.map (array_of st tens) (tm_tens x.1)) /\
      forall phi : index -> nat, einsum sub (List.map (array_of st tens) (tm_tens x.1)) (List.map phi (slots_of lhs)) = rhs_value st dim tens lhs (tm_tens x.1) phi.
Proof. exact contract_einsum. Qed.
Print Assumptions C63_einsum.
Example C63_einsum_nonvacuous : reachable ex_st2 /\ names_ok ex_st2 /\ List.Forall (fun y => ops_ok ex_st2 y.1 /\ y.1 <> [::] /\ (ops_rank y.1 <= 52)%Z) [:: (cs_ops, rat_of_Z 1)] /\
  contract_expr (mkWT 100 false) ex_st2 (rat_of_Z 1) [:: (cs_ops, rat_of_Z 1)] 0%Z 0%Z (Ok [:: (cs_t, mkR 1 1)]) /\
  compile_einsum (fun _ => [:: "1"%char]) ex_st2 (equation_of [:: "R"%char] (cs_t, mkR 1 1)) = Ok (str "R += 1 * np.einsum(""ai,ia->"",F[""vo""],T[""ov""],optimize=""optimal"")"%string).
Proof.
  case: C63_nonvacuous => R [_] [_] [Ok1] [_] [_] [L] [C _]. split=> //. split; [exact: (proj1 C54_nonvacuous)|]. split; [constructor; [split=> //; split=> //|constructor]|]. split=> //.
Qed.
