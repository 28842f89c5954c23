(** C61: states with an active space; the final statements. *)
Set Warnings "-notation-overridden,-ambiguous-paths".
From Coq Require Import ZArith List Lia.
From mathcomp Require Import all_ssreflect ssralg ssrint rat ssrnum matrix.
From Verif Require Import Res RationalModel RationalSpec RegistryModel CoreModel AlgebraModel AlgebraSpec OperatorModel WickSearchModel WickSearchSpec WickCombSpec WickLegSpec SortSpec ScalarSem LadderSpec CanonSemSpec
  WickProductSpec WickEvalModel WickTheoremSpec WickGeneralSpec WickStateSpec WickGenProofs WickGenProofs13 WickStateProofs WickStateProofs2 WickStateProofs3 WickStateProofs4 WickFockProofs WickFockProofs2 WickGeneralExample.
Set Implicit Arguments.
Unset Strict Implicit.
Unset Printing Implicit Defensive.
Import GRing.Theory.
Local Open Scope ring_scope.

Section Final.
  Variables (K : fieldType) (A : algType K) (orb : finType) (st : osi) (cre ann : Z -> orb -> A) (f : {linear A -> K^o}).
  Hypothesis charK : [char K] =i pred0.
  Hypothesis HL : ladder_relations st cre ann.
  Hypothesis HS : multi_reference st.
  Hypothesis Hf : active_state st cre ann f.
  Variables (maxc : nat) (T0 : text -> seq (Z * orb) -> seq (Z * orb) -> bool -> K).
  Hypothesis Hmax : (#|orb| <= maxc)%N.
  Lemma char_two : (2%:R : K) != 0.
  Proof. apply/negP => E. have : 2%N \in [char K] by rewrite inE /= E. by rewrite charK. Qed.
  Lemma states_final : independent_spaces st cre ann f ->
    exists T, (forall label, ~ density_label label -> T label = T0 label) /\ densities st T /\ correlated_state st cre ann T maxc f.
  Proof.
    move=> Hi. exists (ST st cre ann f T0). split.
    - move=> label N. apply: other_tensors => [E|E|t E]; apply: N; [by left|by right; left|by right; right; exists t].
    - split; first exact: (ST_densities HL HS Hf). exact: (state_exists char_two HL HS Hf Hi T0 Hmax).
  Qed.
  Hypothesis H1 : one_active_space st.
  Hypothesis Hm1 : (1 <= maxc)%N.
  Lemma active_final : (forall label, antisymmetric_tensor T0 label) ->
    exists T N, (forall label, ~ density_label label -> T label = T0 label) /\ generalized_normal_product st cre ann T maxc N /\
      forall orbs phi0 o factor ops r, (forall s, uniq (orbs s)) -> wt_maxcumulant o = Z.of_nat maxc ->
        ops_ok st ops -> few_legs st ops -> (forall op, In op ops -> ~ density_label (op_label op)) -> canonical factor ->
        contract o st factor ops Z0 Z0 (Ok r) ->
        expr_value (no_operators K (orb := orb)) T orbs phi0 r = ratK K factor * f (gproduct_value st T N orbs phi0 ops).
  Proof.
    move=> HA. have [T [HT [HD HC]]] := states_final (one_general HL HS Hf H1). have HN := @normal_exists _ _ _ st cre ann T maxc.
    exists T, (NG st cre ann (cumulant st T maxc)). split=> //. split=> // orbs phi0 o factor ops r U Em Pok Few Lab Cf C.
    apply: (gexpectation charK HL HS Hm1 HD HN U phi0 Em HC) Cf C. split=> //. split; first exact: few_legs_no_triple.
    move=> op Hop. rewrite /antisymmetric_tensor (HT _ (Lab _ Hop)). exact: HA.
  Qed.
End Final.
