(** C70: expectation values. *)
Set Warnings "-notation-overridden,-ambiguous-paths".
From Coq Require Import ZArith QArith List Lia Permutation.
From mathcomp Require Import all_ssreflect ssralg.
From Verif Require Import CountProofs Res RationalModel RationalSpec RationalProofs RegistryModel CoreModel AlgebraModel AlgebraSpec AlgebraProofs OperatorModel OperatorSpec OperatorProofs3 CombinatoricsModel CombinatoricsProofs AdjointModel OrderProofs WickSearchModel WickSearchSpec CountSpec WickCombSpec WickCombProofs WickLegSpec WickLegProofs SortSpec SortProofs ScalarSem LadderSpec CanonModel CanonSpec CanonProofs2 CanonSemSpec CanonSemProofs
  WickMatchProofs WickMatchProofs2 WickProductSpec WickProductProofs WickProductProofs2 WickProductProofs3 WickProductProofs4 WickProductProofs5 WickProductProofs6 WickProductProofs7 WickProductProofs8 WickEvalModel WickPairProofs WickPairProofs2 WickPairProofs3 WickPairProofs4 WickProductProofs9 WickProductProofs10
  WickGraphSpec WickGraphProofs WickGraphProofs2 WickLegProofs5 WickLegProofs6 WickPairProofs5 WickPairProofs6 WickProductProofs11 WickTotalProofs WickLinearProofs WickProductProofs12 WickElemProofs WickCompProofs WickSearchProofs WickProductProofs13 WickPairSpec WickPairProofs7 WickProductProofs14 WickTheoremSpec WickProductProofs15 WickMultSpec WickMultProofs WickMultProofs2.
Set Implicit Arguments.
Unset Strict Implicit.
Unset Printing Implicit Defensive.
Import GRing.Theory.
Local Open Scope ring_scope.


Section Expr.
  Variables (K : fieldType) (A : algType K) (orb : eqType) (st : osi) (cre ann : Z -> orb -> A).
  Hypothesis charK : [char K] =i pred0.
  Hypothesis HL : ladder_relations st cre ann.
  Hypothesis HS : single_reference st.
  Variables (T : text -> seq (Z * orb) -> seq (Z * orb) -> bool -> K) (orbs : Z -> seq orb).
  Hypothesis Uorbs : forall s, uniq (orbs s).
  Variables (phi0 : index -> orb) (ops : oprod).
  Hypothesis Hok : ops_ok st ops.
  Hypothesis HT : forall o, In o ops -> antisymmetric_tensor T (op_label o).
  Notation Nw := (normal_product st cre ann).
  Lemma labels_gen B : (B < length ops)%N -> antisymmetric_tensor T (labA ops B).
  Proof. move=> HB. apply: HT. apply: nth_In. exact/ltP. Qed.
  Lemma contract_product_gen (V : lmodType K) (f : {linear A -> V}) minr maxr o factor r w : only_ranks st cre ann f (ops_rank ops) minr maxr ->
    uniform_weight st (wt_maxcumulant o) ops minr maxr w -> canonical factor -> contract o st factor ops minr maxr (Ok r) ->
    f (expr_value Nw T orbs phi0 r) = (zr K w * ratK K factor) *: f (product_value st cre ann T orbs phi0 ops).
  Proof. move=> Hf Hw Cf C. exact: (contract_value_gen charK HL HS Uorbs phi0 (fun l : leg => phi0 (mkI 0 0)) Hok labels_gen Hf Hw Cf C). Qed.
  Lemma contract_keys_gen o factor minr maxr r : canonical factor -> contract o st factor ops minr maxr (Ok r) -> keysP (key_ok st) r.
  Proof.
    move=> Cf [fuel [C _]]. move: C. rewrite /contract_run. case E: (search fuel o st ops minr maxr) => [[els cvs]| | |] // C.
    exact: (proj1 (process_value_gen charK HL HS Uorbs phi0 (fun l : leg => phi0 (mkI 0 0)) Hok labels_gen [linear of idfun] Cf E C)).
  Qed.
  Variable f : {linear A -> K^o}.
  Hypothesis Rf : reference_state st cre ann f.
  Lemma expectation_gen o factor r w : uniform_weight st (wt_maxcumulant o) ops 0 0 w -> canonical factor -> contract o st factor ops 0 0 (Ok r) ->
    expr_value (no_operators K (orb := orb)) T orbs phi0 r = zr K w * ratK K factor * f (product_value st cre ann T orbs phi0 ops).
  Proof. move=> U Cf C. rewrite -(ref_value T orbs phi0 Rf (contract_keys_gen Cf C)). exact: contract_product_gen (only_zero Rf (bound := _)) U Cf C. Qed.
End Expr.
