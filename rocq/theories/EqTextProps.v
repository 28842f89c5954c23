(** C64: the printed form of an equation and its ambit statement. *)
Set Warnings "-notation-overridden,-ambiguous-paths".
From Coq Require Import ZArith List Bool Ascii String Lia.
From mathcomp Require Import all_ssreflect ssralg.
From Verif Require Import Res RegistryModel RegistryProofs RegistryProps CoreModel RationalModel RationalSpec RationalProofs AlgebraModel AlgebraSpec OperatorModel WickSearchModel WickSearchSpec WickEvalModel WickLinearProofs TextModel TextSpec TextProps ExprTextModel ExprTextSpec EquationModel EquationSpec EquationProps
  EinsumSpec EqTextModel EqTextSpec EqTextProofs AmbitSpec AmbitProofs ContractShapeProps ContractAmbitProofs.
Import ListNotations.
Delimit Scope Z_scope with Z.
Local Open Scope list_scope.

(** Equations with the same [str] (which is also [latex]) are equal ([==]). *)
Theorem C64_str : forall st a b s, reachable st -> printable_term st (eq_lhs a) -> printable_term st (eq_rhs a) -> printable_term st (eq_lhs b) -> printable_term st (eq_rhs b) ->
  canonical (eq_factor a) -> canonical (eq_factor b) -> in_int (eq_factor a) -> in_int (eq_factor b) -> eq_str st a = Ok s -> eq_str st b = Ok s -> eq_eqb a b = true.
Proof. exact eq_str_inj. Qed.
Print Assumptions C64_str.
Theorem C64_str_defined : forall st e, reachable st -> printable_term st (eq_lhs e) -> printable_term st (eq_rhs e) -> exists s, eq_str st e = Ok s.
Proof. exact eq_str_ok. Qed.
Print Assumptions C64_str_defined.

(** compile("ambit") throws iff there is an operator on either side, ... *)
Theorem C64_ambit_throws : forall fmt st e, (forall d, In d (tm_tens (eq_lhs e) ++ tm_tens (eq_rhs e)) -> registered st d) ->
  compile_ambit fmt st e = Throw <-> tm_ops (eq_lhs e) <> [] \/ tm_ops (eq_rhs e) <> [].
Proof. exact ambit_throws. Qed.
Print Assumptions C64_ambit_throws.
(** ... and otherwise writes the statement of the equation: the tensors with their indices, upper before lower. *)
Theorem C64_ambit : forall fmt st e lhs, plain_labels_of st -> tm_tens (eq_lhs e) = [lhs] -> tm_ops (eq_lhs e) = [] -> tm_ops (eq_rhs e) = [] ->
  (forall d, In d (lhs :: tm_tens (eq_rhs e)) -> registered st d /\ plain_name (t_label d)) -> plain_name (fmt (eq_factor e)) -> tm_tens (eq_rhs e) <> [] ->
  exists s, compile_ambit fmt st e = Ok s /\ reads_ambit s (ref_of st lhs) (fmt (eq_factor e)) (List.map (ref_of st) (tm_tens (eq_rhs e))).
Proof. exact ambit_reads. Qed.
Print Assumptions C64_ambit.
(** A statement can be read in one way only, and the names give back the indices. *)
Theorem C64_ambit_unambiguous : forall s l f rs l' f' rs', reads_ambit s l f rs -> reads_ambit s l' f' rs' -> l = l' /\ f = f' /\ rs = rs'.
Proof. exact ambit_unique. Qed.
Print Assumptions C64_ambit_unambiguous.
Theorem C64_ambit_names : forall st t u, reachable st -> registered st t -> registered st u -> ref_of st t = ref_of st u -> t_label t = t_label u /\ slots_of t = slots_of u.
Proof. exact ref_of_inj. Qed.
Print Assumptions C64_ambit_names.
(** Its value is the value of the equation, the same as that of the einsum statement (C59). *)
Theorem C64_ambit_value : forall (K : comRingType) st dim dimc (tens : text -> text -> array K) lhs rhs, reachable st -> (forall s c, space_label st s = Ok c -> dimc c = dim s) ->
  (forall t, In t (lhs :: rhs) -> registered st t) -> forall phi,
  ambit_value dimc tens (ref_of st lhs) (List.map (ref_of st) rhs) phi = rhs_value st dim tens lhs rhs (fun i => phi (index_name st i)).
Proof. exact ambit_ok. Qed.
Print Assumptions C64_ambit_value.
(** Every equation of a result of [contract] (on non-empty products with plain labels) has an ambit statement. *)
Theorem C64_contract : forall fmt o st factor e minrank maxrank r label x, plain_labels_of st -> plain_name label -> (forall f, plain_name (fmt f)) ->
  List.Forall (fun y => ops_ok st (fst y) /\ fst y <> [] /\ List.Forall (fun q => plain_name (op_label q)) (fst y)) e -> contract_expr o st factor e minrank maxrank (Ok r) -> In x r ->
  exists lhs s, tm_tens (eq_lhs (equation_of label x)) = [lhs] /\ (forall d, In d (lhs :: tm_tens (fst x)) -> registered st d) /\
    compile_ambit fmt st (equation_of label x) = Ok s /\ reads_ambit s (ref_of st lhs) (fmt (snd x)) (List.map (ref_of st) (tm_tens (fst x))).
Proof. exact contract_ambit. Qed.
Print Assumptions C64_contract.
(** The formats: a term gives an empty text for any other format, an equation throws, an operator always throws. *)
Theorem C64_formats : forall fmt9 fmt6 st format, format <> str "ambit" ->
  (forall t, term_compile st format t = Ok []) /\ (forall q, sqop_compile st format q = Throw) /\ (format <> str "einsum" -> forall e, compile fmt9 fmt6 st format e = Throw) /\
  (forall e, compile fmt9 fmt6 st (str "ambit") e = compile_ambit fmt6 st e) /\ (forall e, compile fmt9 fmt6 st (str "einsum") e = compile_einsum fmt9 st e).
Proof. exact formats. Qed.
Print Assumptions C64_formats.

(** What the ambit statement does not show: which indices are upper and which are lower. *)
Theorem C64_ambit_positions_refuted : exists fmt st a b s, reachable st /\ compile_ambit fmt st a = Ok s /\ compile_ambit fmt st b = Ok s /\ eq_eqb a b = false.
Proof.
  exists (fun _ => str "1.0"), ex_st2, (mkEq (mkTerm false [] [mkT (str "R") [] [] Antisymmetric false]) (mkTerm false [] [mkT (str "T") [mkI 0 0] [mkI 1 0] Antisymmetric false]) (mkR 1 1)),
    (mkEq (mkTerm false [] [mkT (str "R") [] [] Antisymmetric false]) (mkTerm false [] [mkT (str "T") [] [mkI 1 0; mkI 0 0] Antisymmetric false]) (mkR 1 1)), (str "R += 1.0 * T[v0,o0];").
  split; [apply C10_nonvacuous|]. repeat split; reflexivity.
Qed.
Print Assumptions C64_ambit_positions_refuted.
(** An equation without right-hand tensors gives a dangling product, not a statement. *)
Theorem C64_ambit_empty_refuted : exists fmt st x s, reachable st /\ compile_ambit fmt st (equation_of (str "R") x) = Ok s /\ forall l f rs, ~ reads_ambit s l f rs.
Proof.
  exists (fun _ => str "1.0"), ex_st2, (mkTerm false [] [], mkR 1 1), (str "R += 1.0 * ;"). split; [apply C10_nonvacuous|]. split; [reflexivity|]. exact dangling.
Qed.
Print Assumptions C64_ambit_empty_refuted.
(** Equations that differ only in the symmetry of a tensor have the same [str] (and are [==]). *)
Theorem C64_symmetry_refuted : exists st a b s, reachable st /\ a <> b /\ eq_str st a = Ok s /\ eq_str st b = Ok s.
Proof.
  exists ex_st2, (mkEq (mkTerm false [] []) (mkTerm false [] [mkT (str "T") [] [] Antisymmetric false]) (mkR 1 1)), (mkEq (mkTerm false [] []) (mkTerm false [] [mkT (str "T") [] [] Symmetric false]) (mkR 1 1)). eexists.
  split; [apply C10_nonvacuous|]. split; [discriminate|]. split; reflexivity.
Qed.
Print Assumptions C64_symmetry_refuted.

(** ** A case *)
Definition et_e : equation := mkEq (mkTerm false [] [ex_R]) (mkTerm false [] [ex_T; ex_V]) (mkR (-1) 4).
Example C64_nonvacuous : reachable ex_st2 /\ printable_term ex_st2 (eq_lhs et_e) /\ printable_term ex_st2 (eq_rhs et_e) /\ canonical (eq_factor et_e) /\ in_int (eq_factor et_e) /\ plain_labels_of ex_st2 /\
  (forall d, In d (ex_R :: tm_tens (eq_rhs et_e)) -> registered ex_st2 d /\ plain_name (t_label d)) /\
  eq_str ex_st2 et_e = Ok (str "R^{o3}_{o0} += -1/4 T^{v0,v7}_{o0,o2} V^{o2,o3}_{v7,v0}") /\
  compile_ambit (fun _ => str "-0.250000") ex_st2 et_e = Ok (str "R[o3,o0] += -0.250000 * T[v0,v7,o0,o2] * V[o2,o3,v7,v0];").
Proof.
  have I : forall s p, (s = 0 \/ s = 1)%Z -> (0 <= p <= 10)%Z -> printable_index ex_st2 (mkI s p).
    move=> s p Hs Hp. split; first by rewrite /max_int /=; lia. case: Hs => ->; [exists "o"%char|exists "v"%char]; by split.
  have Ts : forall d, In d [ex_R; ex_T; ex_V] -> printable_tensor ex_st2 d.
    move=> d [<-|[<-|[<-|[]]]]; (split; [eexists _, _; split; [reflexivity|split; [reflexivity|constructor]]|split; repeat (constructor; [apply: I; cbn; lia|]); constructor]).
  split; first exact: (proj1 C10_nonvacuous). split; first by split; [constructor; [apply: Ts; left|constructor]|constructor].
  split; first by split; [constructor; [apply: Ts; right; left|constructor; [apply: Ts; right; right; left|constructor]]|constructor].
  split; first by split; [cbn; lia|reflexivity]. split; first by rewrite /in_int /max_int /=; lia. split.
  - move=> sp c H. unfold space_label, PartitionsModel.aget in H. destruct (Z.ltb sp 0); [discriminate|]. destruct (Z.to_nat sp) as [|[|[|n]]]; cbn in H; try discriminate; injection H as <-; reflexivity.
  - split; last by split. move=> d [<-|[<-|[<-|[]]]]; (split; [move=> i Hi; rewrite /num_spaces /=; cbn in Hi; decompose [or False] Hi; subst i; cbn; lia|split; [discriminate|repeat constructor]]).
Qed.
Example C64_contract_nonvacuous : plain_labels_of ex_st2 /\ List.Forall (fun y => ops_ok ex_st2 (fst y) /\ fst y <> [] /\ List.Forall (fun q => plain_name (op_label q)) (fst y)) [(cs_ops, rat_of_Z 1)] /\
  contract_expr (mkWT 100 false) ex_st2 (rat_of_Z 1) [(cs_ops, rat_of_Z 1)] 0%Z 0%Z (Ok [(cs_t, mkR 1 1)]) /\
  compile_ambit (fun _ => str "1.000000") ex_st2 (equation_of (str "R") (cs_t, mkR 1 1)) = Ok (str "R += 1.000000 * F[v0,o0] * T[o0,v0];").
Proof.
  case: C63_nonvacuous => _ [_] [_] [Ok1] [_] [_] [_] [C _]. split; first by case: C64_nonvacuous => _ [_] [_] [_] [_] [].
  split; last by split. constructor; last by constructor. split => //. split => //. repeat (constructor; [split; [discriminate|repeat constructor]|]). constructor.
Qed.
