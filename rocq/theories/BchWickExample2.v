(** A case for C74 with a general space: the series of F and G in a correlated state. *)
Set Warnings "-notation-overridden,-ambiguous-paths".
From Coq Require Import String ZArith QArith List Bool Ascii Lia.
From mathcomp Require Import all_ssreflect ssralg ssrint rat ssrnum matrix.
From Verif Require Import Res RegistryModel CoreModel RationalModel RationalSpec OperatorModel OperatorSpec AlgebraModel AlgebraSpec WickSearchModel WickSearchSpec WickEvalModel WickSearchProps
  LadderSpec WickProductSpec WickPairSpec WickTheoremSpec WickGeneralSpec WickStateSpec WickFockProofs WickFockProofs2 WickGeneralExample WickGeneralExample2 WickGeneralProps PipeExample BchWickSpec BchWickExample BchWickProofs7.
Set Implicit Arguments.
Unset Strict Implicit.
Unset Printing Implicit Defensive.
Import GRing.Theory Num.Theory.
Local Open Scope ring_scope.
Delimit Scope Z_scope with Z.

Definition bg_F : oper := mkOp [:: "F"%char] (ws_gm [:: (0, 0); (1, 1)]%Z).
Definition bg_G : oper := mkOp [:: "G"%char] (ws_gm [:: (0, 0); (1, 1)]%Z).
Definition bg_a : opexpr := [:: ([:: bg_F], rat_of_Z 1)].
Definition bg_b : opexpr := [:: ([:: bg_G], rat_of_Z 1)].
Lemma bg_wf : wf oprod_ltb bg_a /\ wf oprod_ltb bg_b.
Proof. by split; (split; [repeat constructor|split; repeat constructor]). Qed.
Lemma bg_ops o : operators_of bg_a o \/ operators_of bg_b o -> o = bg_F \/ o = bg_G.
Proof. by move=> [[x [[<-|[]] [<-|[]]]]|[x [[<-|[]] [<-|[]]]]]; [left|right]. Qed.
Lemma bg_thrice q q' : operators_of bg_a q \/ operators_of bg_b q -> operators_of bg_a q' \/ operators_of bg_b q' -> never_thrice wg_st q q'.
Proof. move=> /bg_ops [->| ->] _ s /wg_space [->|[->| ->]]; by left. Qed.
Lemma bg_legs : legs_at_most bg_a 2 /\ legs_at_most bg_b 2.
Proof. by split=> x [<-|[]]; vm_compute. Qed.
Lemma anti_pe label : antisymmetric_tensor pe_T label.
Proof. case: pe_product_ok => _ [_ /(_ be_F (or_introl erefl)) H]. exact: H. Qed.
Lemma bg_operators (T : text -> seq (Z * bool) -> seq (Z * bool) -> bool -> rat) : (forall label, ~ density_label label -> T label = pe_T label) -> operators_ok wg_st T bg_a /\ operators_ok wg_st T bg_b.
Proof.
  move=> ET. case: wg_ok => N /List.Forall_forall W.
  have At q : operators_of bg_a q \/ operators_of bg_b q -> antisymmetric_tensor T (op_label q).
  { move=> /bg_ops Q. have Et : T (op_label q) = pe_T (op_label q) by apply: ET; case: Q => ->; move=> [//|[//|[t //]]]. have := anti_pe (op_label q). by rewrite /antisymmetric_tensor Et. }
  split; (split=> // o H); have I : In o wg_ops by case: H => x [[<-|[]] [<-|[]]]; vm_compute; auto.
  all: have [W1 W2] := W _ I; split=> //; split=> //; apply: At; by [left|right].
Qed.
Lemma bg_case : exists (A : algType [fieldType of rat]) (cre ann : Z -> bool -> A) (f : {linear A -> rat^o}) (T : text -> seq (Z * bool) -> seq (Z * bool) -> bool -> rat) (N : seq (bool * (Z * bool)) -> A) r0 r,
  ladder_relations wg_st cre ann /\ multi_reference wg_st /\ densities wg_st T /\ generalized_normal_product wg_st cre ann T 2 N /\ correlated_state wg_st cre ann T 2 f /\
  operators_ok wg_st T bg_a /\ operators_ok wg_st T bg_b /\ bch_series bg_a bg_b 3 = Ok r0 /\ contract_expr (mkWT 2 true) wg_st (rat_of_Z 1) r0 0 0 (Ok r).
Proof.
  have [d dE] := fock_dim [finType of 'I_(Z.to_nat (num_spaces wg_st)).+1 * bool]. have [H1 H2] := C61_fock_space [fieldType of rat] wg_multi dE. have H3 := H2 _ wg_density.
  have [T [ET [HD HC]]] := C61_states (maxc := 2) pe_T (Num.Theory.char_num _) H1 wg_multi H3 (eq_leq card_bool) (C61_one_active_space H1 wg_multi H3 wg_one).
  have [N [HN _]] := C61_normal_product wg_st (fock_cre [fieldType of rat] dE) (fock_ann [fieldType of rat] dE) T 2. have [Oa Ob] := bg_operators ET.
  have Z2 : (0 <= 2)%Z by lia. have Z8 : (2 + Z.of_nat 3 * 2 <= 32)%Z by lia.
  have [r0 [r [E C]]] := series_returns (mkWT 2 true) (rat_of_Z 1) (n := 3) 0 0 (proj1 bg_wf) (proj2 bg_wf) Oa Ob (proj1 bg_legs) (proj2 bg_legs) Z2 Z8.
  exists _, (fock_cre [fieldType of rat] dE), (fock_ann [fieldType of rat] dE), (expect_linear dE wg_D), T, N, r0, r.
  exact (conj H1 (conj wg_multi (conj HD (conj HN (conj HC (conj Oa (conj Ob (conj E C)))))))).
Qed.
