(** C66: the printed form of operators and sums of operator products. *)
From Coq Require Import String.
From Coq Require Import ZArith List Bool Ascii Lia.
From Verif Require Import Res RegistryModel RegistryProofs RegistryProps CoreModel RationalModel RationalSpec AlgebraModel OperatorModel OperatorSpec OperatorProofs OperatorProofs2 DecModel TextModel TextSpec ExprTextModel EquationModel OpTextModel OpTextSpec OpTextProofs.
Import ListNotations.
Local Open Scope Z_scope.

(** Operators with the same [str] are equal, and so are sums with the same [str]. *)
Theorem C66_operator : forall st o q s, reachable st -> lettered st -> printable_op st o -> printable_op st q -> op_str st o = Ok s -> op_str st q = Ok s -> o = q.
Proof. exact (fun st o q s R L => op_inj st R L o q s). Qed.
Print Assumptions C66_operator.
Theorem C66_sum : forall st e e' s, reachable st -> lettered st -> printable_sum st e -> printable_sum st e' -> opexpr_str st e = Ok s -> opexpr_str st e' = Ok s -> e = e'.
Proof. exact (fun st e e' s R L => sum_inj st R L e e' s). Qed.
Print Assumptions C66_sum.
(** The text is defined; it is the factor (unless it is 1), the label and, in braces, a component from which [op] makes the operator again. *)
Theorem C66_reread : forall st o, reachable st -> lettered st -> printable_op st o ->
  exists f w, op_str st o = Ok (f ++ op_label o ++ str " { " ++ w ++ str "}") /\ (f = if rat_eqb (op_factor st o) (rat_of_Z 1) then [] else rat_str (op_factor st o) false ++ str " ") /\
    component_op st (op_label o) w = Ok o /\ make_op_expr st (op_label o) [w] false = Ok [([o], mkR 1 1)].
Proof. exact (fun st o R L => op_reads st R L o). Qed.
Print Assumptions C66_reread.
Theorem C66_sum_defined : forall st e, reachable st -> lettered st -> printable_sum st e -> exists s, opexpr_str st e = Ok s.
Proof. exact (fun st e R L P => ex_intro _ _ (sum_ok st L e P)). Qed.
Print Assumptions C66_sum_defined.
(** [rational.__repr__] determines the rational. *)
Theorem C66_repr : forall a b, rat_repr a = rat_repr b -> a = b.
Proof. exact repr_inj. Qed.
Print Assumptions C66_repr.
(** It is a call of the constructor with the numerator and the denominator in decimals, which gives the rational back. *)
Theorem C66_repr_reads : forall r, canonical r -> exists sg v n d, rat_repr r = str "rational(" ++ sg ++ n ++ str "," ++ d ++ str ")" /\ sign_text sg v /\ n <> [] /\ all_of is_digit n /\ d <> [] /\ all_of is_digit d /\
  v * dec_value n = num r /\ dec_value d = den r /\ rat_make (v * dec_value n) (dec_value d) = r.
Proof. exact repr_reads. Qed.
Print Assumptions C66_repr_reads.

(** Negative counts, which the constructor accepts, are not shown. *)
Theorem C66_negative_refuted : exists st o q s, reachable st /\ lettered st /\ op_valid st o /\ op_valid st q /\ o <> q /\ op_str st o = Ok s /\ op_str st q = Ok s.
Proof.
  exists ex_st2, (mkOp (str "T") ((-1, 0) :: repeat (0, 0) 7)), (mkOp (str "T") (repeat (0, 0) 8)), (str "T { }"). split; [apply C10_nonvacuous|].
  assert (V : forall x, gm_valid ex_st2 (x :: repeat (0, 0) 7)) by (intros x; split; [reflexivity|]; intros i Hi; cbn in Hi; do 8 (destruct i as [|i]; [reflexivity || lia|]); unfold max_spaces in Hi; lia).
  split; [split; [cbn; lia|]|].
  { intros sp c H. unfold space_label, PartitionsModel.aget in H. destruct (Z.ltb sp 0); [discriminate|]. destruct (Z.to_nat sp) as [|[|[|n]]]; cbn in H; try discriminate; injection H as <-; apply is_letter_ok; reflexivity. }
  split; [apply V|]. split; [apply (V (0, 0))|]. split; [discriminate|]. split; reflexivity.
Qed.
Print Assumptions C66_negative_refuted.
(** A label with braces can imitate a product. *)
Theorem C66_label_refuted : exists st e e' s, reachable st /\ lettered st /\ e <> e' /\ opexpr_str st e = Ok s /\ opexpr_str st e' = Ok s.
Proof.
  exists ex_st2, [([mkOp (str "T") ((1, 0) :: repeat (0, 0) 7); mkOp (str "U") ((0, 1) :: repeat (0, 0) 7)], mkR 1 1)], [([mkOp (str "T { o+ } U") ((0, 1) :: repeat (0, 0) 7)], mkR 1 1)], (str "+ T { o+ } U { o }").
  split; [apply C10_nonvacuous|]. split; [split; [cbn; lia|]|].
  { intros sp c H. unfold space_label, PartitionsModel.aget in H. destruct (Z.ltb sp 0); [discriminate|]. destruct (Z.to_nat sp) as [|[|[|n]]]; cbn in H; try discriminate; injection H as <-; apply is_letter_ok; reflexivity. }
  split; [discriminate|]. split; vm_compute; reflexivity.
Qed.
Print Assumptions C66_label_refuted.

(** ** A case *)
Definition ot_T : oper := mkOp (str "T") ((0, 2) :: (3, 1) :: repeat (0, 0) 6).
Example C66_nonvacuous : reachable ex_st2 /\ lettered ex_st2 /\ printable_op ex_st2 ot_T /\ printable_sum ex_st2 [([ot_T; ot_T], mkR (-1) 2)] /\
  opexpr_str ex_st2 [([ot_T; ot_T], mkR (-1) 2)] = Ok (str "-1/2 1/12 T { v+ v+ v+ v o o } 1/12 T { v+ v+ v+ v o o }").
Proof.
  assert (P : printable_op ex_st2 ot_T).
  { split; [split; [reflexivity|]; intros i Hi; cbn in Hi; do 8 (destruct i as [|i]; [reflexivity || lia|]); unfold max_spaces in Hi; lia|]. split.
    - intros s Hs. change (num_spaces ex_st2) with 2 in Hs. assert (E : s = 0 \/ s = 1) by lia. destruct E; subst s; vm_compute; split; discriminate.
    - split; intros H; cbn in H; decompose [or False] H; discriminate. }
  split; [apply C10_nonvacuous|]. split; [split; [cbn; lia|]|].
  { intros sp c H. unfold space_label, PartitionsModel.aget in H. destruct (Z.ltb sp 0); [discriminate|]. destruct (Z.to_nat sp) as [|[|[|n]]]; cbn in H; try discriminate; injection H as <-; apply is_letter_ok; reflexivity. }
  split; [exact P|]. split; [|vm_compute; reflexivity]. constructor; [|constructor]. split; [constructor; [exact P|constructor; [exact P|constructor]]|split; reflexivity].
Qed.
