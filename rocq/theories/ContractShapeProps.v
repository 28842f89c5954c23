(** C63: what the terms returned by [contract] look like, and what can be done with them. *)
From Coq Require Import String Ascii ZArith QArith List Bool Arith Lia Permutation.
From Verif Require Import Res RegistryModel RegistryProofs RegistryProps CoreModel SortSpec RationalModel RationalSpec RationalProofs AlgebraModel AlgebraSpec OperatorModel CanonModel WickSearchModel WickSearchSpec WickEvalModel WickTotalProofs WickLinearProofs
  EquationModel EquationSpec TextModel TextSpec ExprTextModel ExprTextSpec LatexModel LatexSpec WickSearchProps LatexProps ContractShapeSpec ContractShapeProofs ContractShapeProofs2 ContractShapeProofs3.
Import ListNotations.
Local Open Scope Z_scope.

(** Every term is a contraction of the product ([contraction_of], ContractShapeSpec.v). *)
Theorem C63_shape : forall o st factor ops minrank maxrank e, ops_ok st ops -> contract o st factor ops minrank maxrank (Ok e) ->
  forall t c, In (t, c) e -> contraction_of st (wt_maxcumulant o) ops minrank maxrank t.
Proof.
  exact (fun o st factor ops minrank maxrank e Hok H t c Hx => proj1 (Forall_forall _ _) (contract_shape o st factor ops minrank maxrank Hok e H) (t, c) Hx).
Qed.
Print Assumptions C63_shape.
Theorem C63_shape_expression : forall o st factor e minrank maxrank r, Forall (fun x => ops_ok st (fst x)) e -> contract_expr o st factor e minrank maxrank (Ok r) ->
  forall t c, In (t, c) r -> exists x, In x e /\ contraction_of st (wt_maxcumulant o) (fst x) minrank maxrank t.
Proof.
  exact (fun o st factor e minrank maxrank r Hok H t c Hx => proj1 (Forall_forall _ _) (contract_expr_shape o st factor e minrank maxrank r Hok H) (t, c) Hx).
Qed.
Print Assumptions C63_shape_expression.
(** The result is in the map's order without repetitions, with reduced, non-zero coefficients. *)
Theorem C63_well_formed : forall o st factor e minrank maxrank r, Forall (fun x => ops_ok st (fst x) /\ canonical (snd x)) e -> canonical factor ->
  contract_expr o st factor e minrank maxrank (Ok r) -> wf term_ltb r.
Proof. exact contract_expr_wf. Qed.
Print Assumptions C63_well_formed.
(** Results that are printed alike in LaTeX are equal. *)
Theorem C63_latex : forall st sep b1 b2 o1 o2 f1 f2 e1 e2 n1 m1 n2 m2 r1 r2 s, reachable st -> readable_names st -> line_sep sep ->
  Forall (fun x => ops_ok st (fst x) /\ canonical (snd x) /\ plain_labels (fst x)) e1 -> Forall (fun x => ops_ok st (fst x) /\ canonical (snd x) /\ plain_labels (fst x)) e2 ->
  canonical f1 -> canonical f2 -> contract_expr o1 st f1 e1 n1 m1 (Ok r1) -> contract_expr o2 st f2 e2 n2 m2 (Ok r2) ->
  expr_latex b1 st r1 sep = Ok s -> expr_latex b2 st r2 sep = Ok s -> mequal term_eqb r1 r2 = true.
Proof. exact contract_latex. Qed.
Print Assumptions C63_latex.
(** A result is printed, and [string_to_expr] gives it back, unless a coefficient is outside int or the printed text starts with a
    coefficient 2..9 (which [string_to_expr] does not read, C57). *)
Theorem C63_print_parse : forall o st factor e minrank maxrank r, reachable st -> (forall sp l, space_label st sp = Ok l -> is_alpha l = true) ->
  Forall (fun x => ops_ok st (fst x) /\ canonical (snd x) /\ Forall (fun o => name_label (op_label o)) (fst x) /\ ops_rank (fst x) <= max_int) e -> canonical factor ->
  contract_expr o st factor e minrank maxrank (Ok r) -> Forall (fun x => in_int (snd x)) r -> (forall x r', r = x :: r' -> ~ glued x) ->
  exists s r', expr_str st r = Ok s /\ string_to_expr st s = Ok r' /\ mequal term_eqb r' r = true.
Proof. exact contract_str. Qed.
Print Assumptions C63_print_parse.
(** [to_manybody_equation] succeeds on a result, with one equation for each term, different terms giving different equations. *)
Theorem C63_manybody : forall o st factor e minrank maxrank r label, Forall (fun x => ops_ok st (fst x)) e -> contract_expr o st factor e minrank maxrank (Ok r) ->
  exists m, to_manybody st label r = Ok m /\ Permutation (concat (map snd m)) (map (equation_of label) r) /\
    forall x y, In x r -> In y r -> equation_of label x = equation_of label y -> x = y.
Proof. exact contract_manybody. Qed.
Print Assumptions C63_manybody.

(** ** A case *)
(** F creates in the occupied space and annihilates in the unoccupied one, T the other way round; fully contracted. *)
Definition cs_ops : oprod := [mkOp (lit "F") (ws_gm [(1, 0); (0, 1)]); mkOp (lit "T") (ws_gm [(0, 1); (1, 0)])].
Lemma cs_ok : ops_ok ex_st2 cs_ops.
Proof.
  split; [vm_compute; lia|]. repeat constructor; try (intros i Hi; simpl in Hi; unfold max_spaces in Hi; do 8 (destruct i as [|i]; [try lia; reflexivity|]); lia);
      unfold is_space, num_spaces in *; simpl in *; assert (s = 0 \/ s = 1) as [-> | ->] by lia; vm_compute; discriminate.
Qed.
Lemma cs_legs s : is_space ex_st2 s -> legs_in_space cs_ops s <= 32.
Proof. intros Hs. unfold is_space, num_spaces in Hs. simpl in Hs. assert (s = 0 \/ s = 1) as [-> | ->] by lia; vm_compute; discriminate. Qed.
Definition cs_t : term := mkTerm false [] [mkT (lit "F") [mkI 0 0] [mkI 1 0] Antisymmetric false; mkT (lit "T") [mkI 1 0] [mkI 0 0] Antisymmetric false].
Example C63_nonvacuous : reachable ex_st2 /\ readable_names ex_st2 /\ (forall sp l, space_label ex_st2 sp = Ok l -> is_alpha l = true) /\ ops_ok ex_st2 cs_ops /\ plain_labels cs_ops /\
  Forall (fun o => name_label (op_label o)) cs_ops /\ ops_rank cs_ops <= 52 /\
  contract_expr (mkWT 100 false) ex_st2 (rat_of_Z 1) [(cs_ops, rat_of_Z 1)] 0 0 (Ok [(cs_t, mkR 1 1)]) /\ in_int (mkR 1 1) /\ ~ glued (cs_t, mkR 1 1).
Proof.
  split; [apply C10_nonvacuous|]. split; [apply lx_names|]. split; [|split; [apply cs_ok|split; [|split; [|split; [vm_compute; discriminate|split; [|split]]]]]].
  - intros sp l H. unfold space_label, PartitionsModel.aget in H. destruct (Z.ltb sp 0); [discriminate|]. destruct (Z.to_nat sp) as [|[|[|n]]]; cbn in H; try discriminate; injection H as <-; reflexivity.
  - constructor; [|constructor; [|constructor]]; [exists (lit "F"), []|exists (lit "T"), []]; repeat split; try discriminate; repeat constructor.
  - constructor; [|constructor; [|constructor]]; eexists _, _; (split; [reflexivity|]); (split; [reflexivity|constructor]).
  - set (o := mkWT 100 false). assert (S : exists els, search 5 o ex_st2 cs_ops 0 0 = Ok (els, [[0; 1]])) by (eexists; vm_compute; reflexivity). destruct S as (els & S).
    exists [Ok [(cs_t, mkR 1 1)]]. split; [|reflexivity]. constructor; [|constructor]. exists 5%nat. cbn [fst snd]. rewrite S. split; [|discriminate]. unfold contract_run. rewrite S.
    exists [Ok [(cs_t, mkR 1 1)]]. split; [|reflexivity]. constructor; [|constructor].
    assert (E : els = [[ws_gm [(1, 0)]; ws_gm [(0, 1)]]; [ws_gm [(0, 0); (0, 1)]; ws_gm [(0, 0); (1, 0)]]]) by (vm_compute in S; injection S as <-; reflexivity). subst els.
    unfold process_single. exists cs_ops, [[ws_gm [(1, 0)]; ws_gm [(0, 1)]]; [ws_gm [(0, 0); (0, 1)]; ws_gm [(0, 0); (1, 0)]]], 1, (Ok (cs_t, 1)). split; [reflexivity|]. split.
    + intros t f H. vm_compute in H. injection H as <- <-. 
      destruct (mapM (tensor_score ex_st2 (tm_tens cs_t)) (tm_tens cs_t)) as [sc| | |] eqn:E; try discriminate E.
      exists (tm_tens cs_t). split; [|vm_compute; reflexivity]. exists sc, sc. split; [exact E|]. split; [reflexivity|]. vm_compute in E. injection E as <-. split; [|reflexivity]. unfold ordered. repeat constructor.
    + vm_compute. reflexivity.
  - unfold in_int, max_int. cbn. lia.
  - intros (_ & H & _). cbn in H. lia.
Qed.
