(** C44: evaluating a generated contraction. *)
From Coq Require Import Ascii ZArith List Bool Arith Lia Permutation.
From Verif Require Import Res RegistryModel CoreModel RationalModel OperatorModel OperatorSpec SortSpec SortProofs WickSearchModel WickSearchSpec WickEvalModel
  CountSpec WickCombSpec WickCombProofs WickLegSpec WickLegProofs WickLegProofs5 WickLegProofs6 WickSearchProps WickCombProps.
Import ListNotations.
Local Open Scope Z_scope.

(** Contractions that are allowed and do not ask for more legs than there are: the evaluation succeeds and gives the term and the
    factor of the specification [evaluation] (WickLegSpec). *)
Theorem C44_evaluation : forall st maxc ops cs factor, ops_ok st ops -> Forall (allowed st maxc ops) cs -> enough_legs st ops cs ->
  exists t s ix picks effects rest,
    evaluate_contraction st ops cs factor =
      Ok (t, rat_mul (rat_mul (rat_of_Z s) (fold_left (fun f o => rat_mul f (op_factor st o)) ops factor)) (combinatorial_factor st ops cs)) /\
    evaluation st ops cs t s ix picks effects rest.
Proof. exact evaluate_ok. Qed.
Print Assumptions C44_evaluation.
(** Every contraction the search generates, with or without graph canonicalization, is of that kind. *)
Theorem C44_generated : forall fuel o st ops minrank maxrank els cvs cv bops bcs sign factor, ops_ok st ops ->
  search fuel o st ops minrank maxrank = Ok (els, cvs) -> In cv cvs ->
  graph_choice o st ops (map (fun c => nth (Z.to_nat c) els []) cv) (bops, bcs, sign) ->
  exists t s ix picks effects rest,
    evaluate_contraction st bops bcs factor =
      Ok (t, rat_mul (rat_mul (rat_of_Z s) (fold_left (fun f o => rat_mul f (op_factor st o)) bops factor)) (combinatorial_factor st bops bcs)) /\
    evaluation st bops bcs t s ix picks effects rest.
Proof. exact generated_evaluated. Qed.
Print Assumptions C44_generated.
(** Graph canonicalization keeps the contractions allowed. *)
Theorem C44_canonicalization_allowed : forall o st maxc ops cs ops' cs' s, ops_ok st ops -> Forall (allowed st maxc ops) cs -> enough_legs st ops cs ->
  graph_choice o st ops cs (ops', cs', s) -> ops_ok st ops' /\ Forall (allowed st maxc ops') cs' /\ enough_legs st ops' cs'.
Proof. exact graph_allowed. Qed.
Print Assumptions C44_canonicalization_allowed.
(** In an evaluation every leg of the operators is contracted once or left over, and none twice. *)
Theorem C44_each_leg_once : forall st ops cs t s ix picks effects rest, evaluation st ops cs t s ix picks effects rest ->
  let used := flat_map (fun p => fst p ++ snd p) picks ++ rest in
  NoDup used /\ forall l, In l used <-> (leg_op l < length ops)%nat /\ is_space st (leg_space l) /\ 0 <= snd l < leg_count ops (fst l).
Proof.
  exact (fun st ops cs t s ix picks effects rest H =>
    match ev_rest _ _ _ _ _ _ _ _ _ H with
    | ex_intro _ ps (conj Sp _) => conj (Permutation_NoDup (sperm_perm _ _ _ Sp) (product_nodup st ops))
        (fun l => iff_trans (conj (Permutation_in l (Permutation_sym (sperm_perm _ _ _ Sp))) (Permutation_in l (sperm_perm _ _ _ Sp))) (in_product st ops l)) end).
Qed.
Print Assumptions C44_each_leg_once.

(** An occupied pair contracted twice, and a product with a one-body density, a one-hole density and a two-body cumulant. *)
Definition wl_ops : oprod := [mkOp ["T"%char] (ws_gm [(0, 0); (2, 1); (0, 0)]); mkOp ["F"%char] (ws_gm [(0, 0); (1, 2); (0, 0)])].
Example C44_nonvacuous : ops_ok wo_st cw_ops /\ Forall (allowed wo_st 0 cw_ops) [cw_c; cw_c] /\ enough_legs wo_st cw_ops [cw_c; cw_c] /\
  (exists t, evaluate_contraction wo_st cw_ops [cw_c; cw_c] (rat_of_Z 1) = Ok (t, mkR 1 2) /\ length (tm_ops t) = 2%nat) /\
  (exists els cvs, search 50 (mkWT 2 true) ws_st wl_ops 0 6 = Ok (els, cvs) /\ length cvs = 12%nat) /\
  exists t, evaluate_contraction ws_st wl_ops [[ws_gm [(0, 0); (1, 1)]; ws_gm [(0, 0); (1, 1)]]] (rat_of_Z 1) = Ok (t, mkR (-1) 1) /\
    map t_label (tm_tens t) = [["T"]; ["F"]; ["l"; "a"; "m"; "b"; "d"; "a"; "2"]]%char.
Proof.
  split; [apply cw_ok|]. split; [apply (cw_all 2)|]. split; [apply (cw_enough 2); lia|]. split; [eexists; split; vm_compute; reflexivity|].
  split; [do 2 eexists; split; vm_compute; reflexivity|]. eexists; split; vm_compute; reflexivity.
Qed.
