(** An example for C76. *)
From Coq Require Import String Ascii ZArith QArith List Bool Arith Lia Permutation.
From Verif Require Import Res RegistryModel RegistryProofs RegistryProps CoreModel OrderProofs SortSpec RationalModel RationalSpec RationalProofs AlgebraModel AlgebraSpec OperatorModel CanonModel WickSearchModel WickSearchSpec WickEvalModel WickTotalProofs
  EquationSpec TextModel TextSpec ExprTextModel ExprTextSpec LatexModel LatexSpec WickSearchProps LatexProps ContractShapeSpec ContractShapeProofs3 ContractShapeProps RankSplitSpec RankSplitProofs RankSplitProofs2 RankSplitProofs3.
Import ListNotations.
Local Open Scope Z_scope.

(** F (one occupied-unoccupied pair) times T (the opposite one), over 0..4: the part without operators is the fully contracted term, the part
    with four operators is the uncontracted one, and neither is everything. *)
Definition rs_o : wt_opts := mkWT 100 false.
Definition rs_t4 : term := mkTerm false
  [mkSQ true (mkI 0 0); mkSQ true (mkI 1 1); mkSQ false (mkI 1 0); mkSQ false (mkI 0 1)]
  [mkT (lit "F") [mkI 0 0] [mkI 1 0] Antisymmetric false; mkT (lit "T") [mkI 1 1] [mkI 0 1] Antisymmetric false].
Lemma rs_0 : contract rs_o ex_st2 (rat_of_Z 1) cs_ops 0 0 (Ok [(cs_t, mkR 1 1)]).
Proof.
  destruct C63_nonvacuous as (_ & _ & _ & _ & _ & _ & _ & (rs & F & E) & _). inversion F as [|? r ? l H F']; subst. inversion F'; subst. cbn [fst snd] in H. destruct r as [e| | |]; try discriminate.
  assert (W := C63_well_formed rs_o ex_st2 (rat_of_Z 1) [(cs_ops, rat_of_Z 1)] 0 0 [(cs_t, mkR 1 1)]).
  change (rat_mul (rat_of_Z 1) (rat_of_Z 1)) with (rat_of_Z 1) in H. cbn [foldM bind add_result] in E. injection E as E.
  replace e with [(cs_t, mkR 1 1)] in H; [exact H|]. rewrite E. assert (We : wf term_ltb e) by (eapply (contract_wf rs_o ex_st2 (rat_of_Z 1) cs_ops 0 0); [apply cs_ok|apply rat_of_Z_canonical|exact H]).
  assert (X := mplus_parts term_ltb term_eqb swo_term (fun _ => false) e We). replace (filter (fun _ => false) e) with (@nil (term * rational)) in X by (clear; induction e; auto). cbn [negb] in X. replace (filter (fun _ => true) e) with e in X by (clear; induction e as [|x l IH]; [reflexivity|cbn [filter]; f_equal; exact IH]). exact X.
Qed.
Lemma rs_4 : contract rs_o ex_st2 (rat_of_Z 1) cs_ops 4 4 (Ok [(rs_t4, mkR (-1) 1)]).
Proof.
  assert (S : exists els, search 5 rs_o ex_st2 cs_ops 4 4 = Ok (els, [[]])) by (eexists; vm_compute; reflexivity). destruct S as (els & S).
  exists 5%nat. rewrite S. split; [|discriminate]. unfold contract_run. rewrite S.
    exists [Ok [(rs_t4, mkR (-1) 1)]]. split; [|reflexivity]. constructor; [|constructor].
    assert (E : els = [[ws_gm [(1, 0)]; ws_gm [(0, 1)]]; [ws_gm [(0, 0); (0, 1)]; ws_gm [(0, 0); (1, 0)]]]) by (vm_compute in S; injection S as <-; reflexivity). subst els.
    unfold process_single. exists cs_ops, [], 1, (Ok (rs_t4, -1)). split; [reflexivity|]. split.
    + intros t f H. vm_compute in H. injection H as <- <-. 
      eexists. split; [eexists _, _; split; [vm_compute; reflexivity|]; split; [reflexivity|]; split; [|reflexivity]; unfold ordered; repeat constructor|]. vm_compute. reflexivity.
    + vm_compute. reflexivity.
Qed.
Lemma rs_case : exists r, contract rs_o ex_st2 (rat_of_Z 1) cs_ops 0 4 (Ok r) /\ rank_part 0 0 r = [(cs_t, mkR 1 1)] /\ rank_part 4 4 r = [(rs_t4, mkR (-1) 1)].
Proof.
  assert (M : exists rm, contract rs_o ex_st2 (rat_of_Z 1) cs_ops 1 3 (Ok rm)).
  { destruct (contract_defined rs_o ex_st2 (rat_of_Z 1) cs_ops 1 3 cs_ok) as (r & H). destruct (contract_succeeds rs_o ex_st2 (rat_of_Z 1) cs_ops 1 3 cs_ok r cs_legs ltac:(vm_compute; discriminate) H) as (e & ->). exists e. exact H. }
  destruct M as (rm & M). destruct (contract_join rs_o ex_st2 (rat_of_Z 1) cs_ops cs_ok 0 0 3 _ rm ltac:(lia) ltac:(lia) rs_0 M) as (r3 & H3 & P0 & _).
  destruct (contract_join rs_o ex_st2 (rat_of_Z 1) cs_ops cs_ok 0 3 4 r3 _ ltac:(lia) ltac:(lia) H3 rs_4) as (r & H & P3 & P4). exists r. split; [exact H|]. split; [|exact P4].
  rewrite <- P0, <- P3. unfold rank_part. clear. induction r as [|x l IH]; [reflexivity|]. cbn [filter]. set (k := rank_of (fst x)) in *.
  destruct (Z.leb_spec 0 k), (Z.leb_spec k 0), (Z.leb_spec k 3); cbn [andb filter]; fold k; try lia; rewrite ?IH;
    repeat match goal with |- context [?a <=? ?b] => destruct (Z.leb_spec a b); try lia end; cbn [andb]; congruence.
Qed.
