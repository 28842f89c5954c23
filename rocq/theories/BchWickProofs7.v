(** C74: where the series ends; that the calls return. *)
Set Warnings "-notation-overridden,-ambiguous-paths".
From Coq Require Import ZArith QArith List Lia Ascii String.
From mathcomp Require Import all_ssreflect ssralg ssrint rat ssrnum.
From Verif Require Import Res RationalModel RationalSpec RationalProofs RegistryModel RegistryProofs CoreModel AlgebraModel AlgebraSpec AlgebraProofs OperatorModel OperatorSpec ScalarSem LadderSpec CanonSpec CanonSemSpec CanonSemProofs WickSearchModel WickSearchSpec WickEvalModel OperatorSemSpec OperatorSemProofs
  WickPairSpec WickProductSpec WickTheoremSpec WickLinearProofs WickProductProofs14 ContractShapeProofs3 DecimalModel TextModel TextSpec EquationModel EquationSpec EinsumSpec PipeSpec PipeProofs PipeProofs4 PipeProofs5 PipeProofs6 PipeProofs7 BchWickSpec BchWickProofs BchWickProofs2 BchWickProofs4 BchWickProofs5 BchWickProofs6 BchWickProofs3 BchProofs WickGeneralSpec WickGenProofs13.
Set Implicit Arguments.
Unset Strict Implicit.
Unset Printing Implicit Defensive.
Import GRing.Theory Num.Theory.
Local Open Scope ring_scope.
Delimit Scope Z_scope with Z.

Section Series.
  Variables (K : fieldType) (A : algType K) (orb : eqType) (st : osi) (cre ann : Z -> orb -> A) (T : text -> seq (Z * orb) -> seq (Z * orb) -> bool -> K) (orbs : Z -> seq orb) (phi0 : index -> orb).
  Hypothesis ch : [char K] =i pred0.
  Hypothesis HL : ladder_relations st cre ann.
  Hypothesis HS : single_reference st.
  Notation value := (opexpr_value st cre ann T orbs phi0).
  Lemma series_value a b (n : nat) r0 : wf oprod_ltb a -> wf oprod_ltb b -> bch_series a b (Z.of_nat n) = Ok r0 -> value r0 = bch_sum (value a) (value b) n.
  Proof. move=> Wa Wb E. have [r1 [E1 [W1 Er]]] := @bch_series_den K A ch (op_value st cre ann T orbs phi0) a b (Z.of_nat n) Wa Wb. rewrite E in E1. case: E1 => Q. subst r1. rewrite Nat2Z.id in Er. exact: Er. Qed.
  Lemma series_exact a b (d n : nat) m r0 : wf oprod_ltb a -> wf oprod_ltb b -> operators_ok st T a -> operators_ok st T b -> cluster_operator st b -> legs_at_most a (Z.of_nat d) -> (d <= n)%N -> value b ^+ m = 0 ->
    bch_series a b (Z.of_nat n) = Ok r0 -> value r0 = exponential m (- value b) * value a * exponential m (value b).
  Proof. move=> Wa Wb Oa Ob Cb La Ld Z E. by rewrite (series_value Wa Wb E) (bch_exact ch (cluster_vanishes HL HS orbs phi0 Oa Ob Cb La) Ld Z). Qed.
End Series.
Lemma series_returns (K : fieldType) (orb : eqType) st (T : text -> seq (Z * orb) -> seq (Z * orb) -> bool -> K) o factor a b (n : nat) na nb minr maxr : wf oprod_ltb a -> wf oprod_ltb b -> operators_ok st T a -> operators_ok st T b ->
  legs_at_most a na -> legs_at_most b nb -> (0 <= nb)%Z -> (na + Z.of_nat n * nb <= 32)%Z -> exists r0 r, bch_series a b (Z.of_nat n) = Ok r0 /\ contract_expr o st factor r0 minr maxr (Ok r).
Proof.
  move=> Wa Wb Oa Ob La Lb N0 L. have ch := Num.Theory.char_num [numDomainType of rat].
  have [r0 [E _]] := @bch_series_den _ [algType rat of rat^o] ch (fun _ => 0) a b (Z.of_nat n) Wa Wb.
  exists r0. have [|r C] := @contract_expr_total o st factor r0 minr maxr; last by exists r.
  move=> x Hx. have [H1 H2] := series_ok Oa Ob La Lb N0 E Hx. split=> //. lia.
Qed.

(** ** Correlated states *)
Lemma contract_gexpectation (K : fieldType) (A : algType K) (orb : eqType) st (cre ann : Z -> orb -> A) (T : text -> seq (Z * orb) -> seq (Z * orb) -> bool -> K) (orbs : Z -> seq orb) (phi0 : index -> orb) (maxc : nat) N o factor (f : {linear A -> K^o}) a b (n : nat) na nb r0 r :
  [char K] =i pred0 -> ladder_relations st cre ann -> multi_reference st -> (1 <= maxc)%N -> wt_maxcumulant o = Z.of_nat maxc -> densities st T -> generalized_normal_product st cre ann T maxc N -> correlated_state st cre ann T maxc f ->
  (forall s, uniq (orbs s)) -> canonical factor -> wf oprod_ltb a -> wf oprod_ltb b -> operators_ok st T a -> operators_ok st T b ->
  (forall q q', operators_of a q \/ operators_of b q -> operators_of a q' \/ operators_of b q' -> never_thrice st q q') ->
  legs_at_most a na -> legs_at_most b nb -> (0 <= nb)%Z -> bch_series a b (Z.of_nat n) = Ok r0 -> contract_expr o st factor r0 0 0 (Ok r) ->
  expr_value (@no_operators K orb) T orbs phi0 r = ratK K factor * f (bch_sum (gopexpr_value st T N orbs phi0 a) (gopexpr_value st T N orbs phi0 b) n).
Proof.
  move=> ch HL HS M1 Em HD HN Rf U Cf Wa Wb Oa Ob D La Lb N0 E C.
  have Ns : f (N [::]) = 1 by exact: (cor_normal HN Rf (w := [::])).
  rewrite -(@scalar_expr K A orb T orbs phi0 N f Ns).
  - exact: (@contract_gbch K A orb st cre ann ch HL HS T orbs phi0 U maxc N o factor 0 0 _ f M1 Em HD HN Cf a b n na nb r0 r Wa Wb Oa Ob D La Lb N0 (gonly_zero HN Rf (bound := _)) E C).
  - by apply: scalar_terms C => x Hx; case: (series_ok Oa Ob La Lb N0 E Hx).
Qed.
