(** A case for C80: ST + TS. *)
Set Warnings "-notation-overridden,-ambiguous-paths".
From Coq Require Import String ZArith QArith List Bool Ascii Lia.
From mathcomp Require Import all_ssreflect ssralg ssrint rat ssrnum matrix.
From Verif Require Import Res RegistryModel RegistryProps CoreModel RationalModel RationalSpec OperatorModel OperatorSpec AlgebraModel AlgebraSpec WickSearchModel WickSearchSpec WickEvalModel TextModel TextProps WickTheoremSpec PipeExample0 PipeExample ContractShapeProps WickSearchProps
  OperatorSemSpec BchWickSpec BchWickProofs4 BchWickProofs5 BchWickExample BchWickExample2 ContractShapeProofs2 EquationModel EquationSpec EinsumSpec RegistryProofs LadderSpec WickGeneralSpec WickStateSpec WickFockProofs WickFockProofs2 WickGeneralExample WickGeneralExample2 WickGeneralProps CanonWickProofs.
Set Implicit Arguments.
Unset Strict Implicit.
Unset Printing Implicit Defensive.
Import GRing.Theory Num.Theory.
Local Open Scope ring_scope.
Delimit Scope Z_scope with Z.

Lemma canon_returns st o factor e minr maxr : (length (space_info st) <= max_spaces)%coq_nat -> (forall q, operators_of e q -> proper st q) -> legs_at_most e 32 ->
  exists r, contract_expr o st factor (opexpr_canonicalize st e) minr maxr (Ok r).
Proof.
  move=> N H L. apply: contract_expr_total => x Hx. have Kr := made_expr (fun q (Hq : operators_of e q) => Hq) L.
  have Ke := canon_keys st (@made_perm (operators_of e) 32) Kr. have [M R] := proj1 (List.Forall_forall _ _) Ke x Hx. split=> //. split=> //. apply/List.Forall_forall => q Hq. by have [] := H q (M q Hq).
Qed.

Definition cw_S : oper := mkOp (str "S") (ws_gm [:: (0, 1); (1, 0)]%Z).
Definition cw_e : opexpr := [:: ([:: cw_S; be_T], rat_of_Z 1); ([:: be_T; cw_S], rat_of_Z 1)].
Lemma cw_wf : wf oprod_ltb cw_e.
Proof. by split; [repeat constructor|split; repeat constructor]. Qed.
Lemma cw_form : opexpr_canonicalize ex_st2 cw_e = [:: ([:: cw_S; be_T], mkR 2 1)].
Proof. by vm_compute. Qed.
Lemma cw_ops q : operators_of cw_e q -> q = cw_S \/ q = be_T.
Proof. by move=> [x [[<-|[<-|[]]] [<-|[<-|[]]]]]; [left|right|right|left]. Qed.
Lemma cw_operators : operators_ok ex_st2 pe_T cw_e.
Proof.
  case: be_operators => _ [N H]. split=> // q /cw_ops Hq. have [V1 [V2 _]] : op_valid ex_st2 be_T /\ nonneg_counts ex_st2 be_T /\ antisymmetric_tensor pe_T (op_label be_T) by apply: H; exists ([:: be_T], rat_of_Z 1); split; left.
  split; last split; last exact: anti_pe; by case: Hq => ->.
Qed.
Lemma cw_twice q q' : operators_of cw_e q -> operators_of cw_e q' -> twice_at_most ex_st2 q q'.
Proof. move=> /cw_ops [->| ->] /cw_ops [->| ->] s /be_spaces [->| ->]; split=> _; left; by vm_compute. Qed.
Lemma cw_legs : legs_at_most cw_e 4.
Proof. by move=> x [<-|[<-|[]]]; vm_compute. Qed.
Lemma cw_contract : exists r, contract_expr (mkWT 100 true) ex_st2 (rat_of_Z 1) cw_e 0 4 (Ok r).
Proof.
  case: cw_operators => N H. apply: contract_expr_total => x Hx. split; last by move: Hx => [<-|[<-|[]]]; vm_compute.
  split=> //. apply/List.Forall_forall => q Hq. have [|V1 [V2 _]] := H q; first by exists x. by split.
Qed.
Lemma cw_contract_canon : exists r, contract_expr (mkWT 100 false) ex_st2 (rat_of_Z 1) (opexpr_canonicalize ex_st2 cw_e) 0 4 (Ok r).
Proof.
  case: cw_operators => N H. apply: canon_returns => //; last by move=> x /cw_legs; lia. move=> q /H [V1 [V2 _]]. by split.
Qed.

(** With a general space: QP, which is - PQ. *)
Definition cg_P : oper := mkOp [:: "P"%char] (ws_gm [:: (0, 0); (1, 0)]%Z).
Definition cg_Q : oper := mkOp [:: "Q"%char] (ws_gm [:: (0, 0); (1, 0)]%Z).
Definition cg_e : opexpr := [:: ([:: cg_Q; cg_P], rat_of_Z 1)].
Lemma cg_wf : wf oprod_ltb cg_e.
Proof. by split; [repeat constructor|split; repeat constructor]. Qed.
Lemma cg_form : opexpr_canonicalize wg_st cg_e = [:: ([:: cg_P; cg_Q], rat_of_Z (-1))].
Proof. by vm_compute. Qed.
Lemma cg_legs : legs_at_most cg_e 2.
Proof. by move=> x [<-|[]]; vm_compute. Qed.
Lemma cg_ops q : operators_of cg_e q -> q = cg_P \/ q = cg_Q.
Proof. by move=> [x [[<-|[]] [<-|[<-|[]]]]]; [right|left]. Qed.
Lemma cg_thrice q q' : operators_of cg_e q -> operators_of cg_e q' -> never_thrice wg_st q q'.
Proof. move=> /cg_ops [->| ->] _ s /wg_space [->|[->| ->]]; by left. Qed.
Lemma cg_proper q : operators_of cg_e q -> proper wg_st q.
Proof.
  have Pr c : proper wg_st (mkOp [:: c] (ws_gm [:: (0, 0); (1, 0)]%Z)).
  { split.
    - split=> // i Hi. have L1 : Peano.le 3 i by exact: (proj1 Hi). have L2 : Peano.lt i 8 by exact: (proj2 Hi).
      do 8 (destruct i as [|i]; [first [reflexivity | exfalso; lia]|]). exfalso. lia.
    - move=> s /wg_space [->|[->| ->]]; by []. }
  by move=> /cg_ops [->| ->]; exact: Pr.
Qed.
Lemma cg_case : exists (A : algType [fieldType of rat]) (cre ann : Z -> bool -> A) (f : {linear A -> rat^o}) (T : text -> seq (Z * bool) -> seq (Z * bool) -> bool -> rat) (N : seq (bool * (Z * bool)) -> A) r r',
  ladder_relations wg_st cre ann /\ multi_reference wg_st /\ densities wg_st T /\ generalized_normal_product wg_st cre ann T 2 N /\ correlated_state wg_st cre ann T 2 f /\
  operators_ok wg_st T cg_e /\ contract_expr (mkWT 2 true) wg_st (rat_of_Z 1) cg_e 0 0 (Ok r) /\ contract_expr (mkWT 2 true) wg_st (rat_of_Z 1) (opexpr_canonicalize wg_st cg_e) 0 0 (Ok r').
Proof.
  have [d dE] := fock_dim [finType of 'I_(Z.to_nat (num_spaces wg_st)).+1 * bool]. have [H1 H2] := C61_fock_space [fieldType of rat] wg_multi dE. have H3 := H2 _ wg_density.
  have [T [ET [HD HC]]] := C61_states (maxc := 2) pe_T (Num.Theory.char_num _) H1 wg_multi H3 (eq_leq card_bool) (C61_one_active_space H1 wg_multi H3 wg_one).
  have [N [HN _]] := C61_normal_product wg_st (fock_cre [fieldType of rat] dE) (fock_ann [fieldType of rat] dE) T 2.
  have Nw : (length (space_info wg_st) <= max_spaces)%coq_nat by case: wg_ok.
  have OE : operators_ok wg_st T cg_e.
  { split=> // q Hq. have [V1 V2] := cg_proper Hq. split=> //. split=> //.
    have Et : T (op_label q) = pe_T (op_label q) by apply: ET; case: (cg_ops Hq) => ->; move=> [//|[//|[t //]]]. have := anti_pe (op_label q). by rewrite /antisymmetric_tensor Et. }
  have [r C] : exists r, contract_expr (mkWT 2 true) wg_st (rat_of_Z 1) cg_e 0 0 (Ok r).
  { apply: contract_expr_total => x Hx. split; last by have := cg_legs Hx; lia. split=> //. apply/List.Forall_forall => q Hq. apply: cg_proper. by exists x. }
  have [r' C'] : exists r, contract_expr (mkWT 2 true) wg_st (rat_of_Z 1) (opexpr_canonicalize wg_st cg_e) 0 0 (Ok r) by apply: canon_returns => //; [exact: cg_proper|move=> x /cg_legs; lia].
  exists _, (fock_cre [fieldType of rat] dE), (fock_ann [fieldType of rat] dE), (expect_linear dE wg_D), T, N, r, r'.
  exact (conj H1 (conj wg_multi (conj HD (conj HN (conj HC (conj OE (conj C C')))))))  .
Qed.
