(** A case for C74: the series of F and T of order 2, with two occupied and two unoccupied orbitals. *)
Set Warnings "-notation-overridden,-ambiguous-paths".
From Coq Require Import String ZArith QArith List Bool Ascii Lia.
From mathcomp Require Import all_ssreflect ssralg ssrint rat ssrnum.
From Verif Require Import Res RegistryModel RegistryProofs RegistryProps CoreModel RationalModel RationalSpec SortSpec OperatorModel AlgebraModel AlgebraSpec WickSearchModel WickSearchSpec WickEvalModel WickLinearProofs TextModel TextProps EquationModel EquationSpec EinsumSpec ContractShapeProps WickSearchProps
  DecimalModel DecimalSpec LadderSpec WickProductSpec WickPairSpec WickTheoremSpec WickProductProps PipeSpec PipeExample0 PipeExample BchWickSpec.
Set Implicit Arguments.
Unset Strict Implicit.
Unset Printing Implicit Defensive.
Import GRing.Theory Num.Theory.
Local Open Scope ring_scope.
Delimit Scope Z_scope with Z.

Definition be_F : oper := mkOp (str "F") (ws_gm [:: (1, 0); (0, 1)]%Z).
Definition be_T : oper := mkOp (str "T") (ws_gm [:: (0, 1); (1, 0)]%Z).
Definition be_a : opexpr := [:: ([:: be_F], rat_of_Z 1)].
Definition be_b : opexpr := [:: ([:: be_T], rat_of_Z 1)].
Definition be_r0 : opexpr := [:: ([:: be_F], mkR 1 1); ([:: be_F; be_T], mkR 1 1); ([:: be_F; be_T; be_T], mkR 1 2); ([:: be_T; be_F], mkR (-1) 1);
  ([:: be_T; be_F; be_T], mkR (-1) 1); ([:: be_T; be_T; be_F], mkR 1 2)].
Definition be_o : wt_opts := mkWT 100 false.

Lemma be_series : bch_series be_a be_b 2 = Ok be_r0.
Proof. by vm_compute. Qed.
Lemma be_wf : wf oprod_ltb be_a /\ wf oprod_ltb be_b.
Proof. by split; (split; [repeat constructor|split; repeat constructor]). Qed.
Lemma be_spaces s : is_space ex_st2 s -> s = 0%Z \/ s = 1%Z.
Proof. rewrite /is_space /num_spaces /=. lia. Qed.
Lemma be_ops o : operators_of be_a o \/ operators_of be_b o -> o = be_F \/ o = be_T.
Proof. by move=> [[x [[<-|[]] [<-|[]]]]|[x [[<-|[]] [<-|[]]]]]; [left|right]. Qed.
Lemma be_operators : operators_ok ex_st2 pe_T be_a /\ operators_ok ex_st2 pe_T be_b.
Proof.
  case: pe_product_ok => [[N W] [_ An]]. move/List.Forall_forall: W => W.
  split; (split=> // o H); have I : In o cs_ops by case: H => x [[<-|[]] [<-|[]]]; vm_compute; auto.
  all: by have [W1 W2] := W _ I; split=> //; split=> //; apply: An.
Qed.
Lemma be_two_body o : operators_of be_a o -> two_body ex_st2 o.
Proof. move=> [x [[<-|[]] [<-|[]]]] s /be_spaces [->| ->]; by vm_compute. Qed.
Lemma be_cluster : cluster_operator ex_st2 be_b.
Proof. move=> x [<-|[]]. split; last by vm_compute. move=> o [<-|[]] s /be_spaces [->| ->]; by split. Qed.
Lemma be_legs : legs_at_most be_a 2 /\ legs_at_most be_b 2.
Proof. by split=> x [<-|[]]; vm_compute. Qed.
Lemma be_none p : In p [:: [:: be_F]; [:: be_F; be_T; be_T]; [:: be_T; be_F]; [:: be_T; be_F; be_T]; [:: be_T; be_T; be_F]] -> forall factor, contract be_o ex_st2 factor p 0 0 (Ok [::]).
Proof.
  move=> H factor. exists 5%N. have [els E] : exists els, search 5 be_o ex_st2 p 0 0 = Ok (els, [::]) by move: H => [<-|[<-|[<-|[<-|[<-|[]]]]]]; eexists; vm_compute; reflexivity.
  rewrite /contract_run E. split=> //. exists [::]. by split; [constructor|].
Qed.
Lemma be_contract : contract_expr be_o ex_st2 (rat_of_Z 1) be_r0 0 0 (Ok pe_r).
Proof.
  exists [:: Ok [::]; Ok pe_r; Ok [::]; Ok [::]; Ok [::]; Ok [::]]. split; last by vm_compute.
  constructor; first by apply: be_none; left. constructor; first exact: pe_contract. constructor; first by apply: be_none; right; left. constructor; first by apply: be_none; do 2 right; left.
  constructor; first by apply: be_none; do 3 right; left. constructor; [by apply: be_none; do 4 right; left|by constructor].
Qed.
Lemma be_plain q : operators_of be_a q \/ operators_of be_b q -> plain (op_label q).
Proof. by move=> /be_ops [->| ->] c [<-|[]]. Qed.
