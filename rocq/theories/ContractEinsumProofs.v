(** The compiled equations of the terms returned by [contract] (C63). *)
Set Warnings "-notation-overridden,-ambiguous-paths".
From Coq Require Import ZArith List Bool Ascii String Lia.
From mathcomp Require Import all_ssreflect ssralg.
From Verif Require Import Res RegistryModel RegistryProofs CoreModel RationalModel OperatorModel AlgebraModel AlgebraSpec WickSearchModel WickSearchSpec WickEvalModel WickLinearProofs TextModel EquationModel EquationSpec EinsumSpec EinsumProofs2 ContractShapeSpec ContractShapeProofs2 ContractShapeProofs3.
Import GRing.Theory.
Delimit Scope Z_scope with Z.
Local Open Scope ring_scope.

Lemma contract_einsum fmt o st factor e minrank maxrank r label x : reachable st -> names_ok st -> List.Forall (fun y => ops_ok st y.1 /\ y.1 <> [::] /\ (ops_rank y.1 <= 52)%Z) e ->
  contract_expr o st factor e minrank maxrank (Ok r) -> In x r ->
  exists lhs s sub, tm_tens (eq_lhs (equation_of label x)) = [:: lhs] /\ compile_einsum fmt st (equation_of label x) = Ok s /\
    s = statement_text st (fmt (eq_factor (equation_of label x))) sub lhs (tm_tens x.1) /\
    forall (K : comRingType) (dim : Z -> nat) (tens : text -> text -> array K), (forall t, In t (tm_tens x.1) -> well_shaped st dim tens t) ->
      accepts sub (List.map (array_of st tens) (tm_tens x.1)) /\
      forall phi : index -> nat, einsum sub (List.map (array_of st tens) (tm_tens x.1)) (List.map phi (slots_of lhs)) = rhs_value st dim tens lhs (tm_tens x.1) phi.
Proof.
  move=> R N H Ke Hx. have Hok : List.Forall (fun y => ops_ok st y.1) e by apply: Forall_impl H => y [].
  have S := proj1 (Forall_forall _ _) (contract_expr_shape o st factor e minrank maxrank r Hok Ke) x Hx. case: S => y [Hy Sh].
  have [_ [Ne Rk]] := proj1 (Forall_forall _ _) H y Hy. case: x Hx Sh => t c Hx Sh.
  have /= := contraction_lhs st (wt_maxcumulant o) y.1 minrank maxrank t label c Sh. move=> [lhs [E [Nd [Ic [Sp [Le Nt]]]]]].
  have Hd : hd_error (tm_tens (eq_lhs (equation_of label (t, c)))) = Some lhs by rewrite /= in E *; case: E => ->.
  have Cp := @compiles fmt st (equation_of label (t, c)) lhs R N Hd Sp.
  have L52 : Nat.leb (List.length (nodup index_dec (flat_map slots_of (tm_tens (eq_rhs (equation_of label (t, c))) ++ [:: lhs])%list))) 52 = true.
    apply/Nat.leb_le. move: Le => /=. lia.
  rewrite L52 in Cp. case: Cp => s Cs. have [sub [Es V]] := @compiled fmt st (equation_of label (t, c)) lhs s R N Hd Sp Cs.
  exists lhs, s, sub. split=> //. split=> //. split=> // K dim tens W. have [Ac Vl] := V K dim tens W. have A : accepts sub (List.map (array_of st tens) (tm_tens t)) by apply/Ac; split; [exact: Nt|].
  split=> //. exact: Vl.
Qed.
