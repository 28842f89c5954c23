(** A result of [contract] for C73. *)
From Coq Require Import String Ascii ZArith List Bool Lia.
From Verif Require Import Res RegistryModel RegistryProps CoreModel SortSpec RationalModel AlgebraModel OperatorModel CanonModel WickSearchModel WickSearchSpec WickEvalModel WickSearchProps ContractShapeProps.
Import ListNotations.
Local Open Scope Z_scope.
Lemma cs_contract : contract (mkWT 100 false) ex_st2 (rat_of_Z 1) cs_ops 0 0 (Ok [(cs_t, mkR 1 1)]).
Proof.
  set (o := mkWT 100 false). assert (S : exists els, search 5 o ex_st2 cs_ops 0 0 = Ok (els, [[0; 1]])) by (eexists; vm_compute; reflexivity). destruct S as (els & S).
  exists 5%nat. rewrite S. split; [|discriminate]. unfold contract_run. rewrite S.
  exists [Ok [(cs_t, mkR 1 1)]]. split; [|reflexivity]. constructor; [|constructor].
  assert (E : els = [[ws_gm [(1, 0)]; ws_gm [(0, 1)]]; [ws_gm [(0, 0); (0, 1)]; ws_gm [(0, 0); (1, 0)]]]) by (vm_compute in S; injection S as <-; reflexivity). subst els.
  unfold process_single. exists cs_ops, [[ws_gm [(1, 0)]; ws_gm [(0, 1)]]; [ws_gm [(0, 0); (0, 1)]; ws_gm [(0, 0); (1, 0)]]], 1, (Ok (cs_t, 1)). split; [reflexivity|]. split.
  - intros t f H. vm_compute in H. injection H as <- <-. 
    destruct (mapM (tensor_score ex_st2 (tm_tens cs_t)) (tm_tens cs_t)) as [sc| | |] eqn:E; try discriminate E.
    exists (tm_tens cs_t). split; [|vm_compute; reflexivity]. exists sc, sc. split; [exact E|]. split; [reflexivity|]. vm_compute in E. injection E as <-. split; [|reflexivity]. unfold ordered. repeat constructor.
  - vm_compute. reflexivity.
Qed.
