(** C80: canonicalizing an operator expression before contracting it. *)
Set Warnings "-notation-overridden,-ambiguous-paths".
From Coq Require Import String ZArith QArith List Bool Ascii Lia.
From mathcomp Require Import all_ssreflect ssralg ssrint rat ssrnum.
From Verif Require Import Res RegistryModel CoreModel RationalModel RationalSpec ScalarSem OperatorModel AlgebraModel AlgebraSpec WickSearchModel WickSearchSpec WickEvalModel SortSpec LadderSpec CanonSemSpec OperatorSpec OperatorSemSpec
  WickProductSpec WickPairSpec WickTheoremSpec WickProductProps BchWickSpec BchWickProofs5 PipeExample BchWickExample BchWickExample2 WickGeneralSpec WickGeneralExample CanonWickProofs CanonWickProofs2 CanonWickExample RegistryProps ContractShapeProps WickSearchProps.
Set Implicit Arguments.
Unset Strict Implicit.
Unset Printing Implicit Defensive.
Import GRing.Theory Num.Theory.
Local Open Scope ring_scope.
Delimit Scope Z_scope with Z.

(** An operator denotes a combination of words with its numbers of creation and annihilation operators, so operators that
    [canonicalize] exchanges do commute up to its sign, ... *)
Theorem C80_exchanges : forall (K : fieldType) (A : algType K) (orb : eqType) (st : osi) (cre ann : Z -> orb -> A) (T : text -> seq (Z * orb) -> seq (Z * orb) -> bool -> K)
    (orbs : Z -> seq orb) (phi0 : index -> orb),
  ladder_relations st cre ann -> single_reference st -> (length (space_info st) <= max_spaces)%coq_nat -> forall a b, proper st a -> proper st b -> ops_commute st a b = true ->
  op_value st cre ann T orbs phi0 a * op_value st cre ann T orbs phi0 b = zr K (nsign (Z.mul (op_num a) (op_num b))) *: (op_value st cre ann T orbs phi0 b * op_value st cre ann T orbs phi0 a).
Proof. exact (fun K A orb st cre ann T orbs phi0 HL HS N => @ops_commuting K A orb st cre ann HL HS N T orbs phi0). Qed.
Print Assumptions C80_exchanges.
(** ... [canonicalize] does not change the value of an expression, ... *)
Theorem C80_value : forall (K : fieldType) (A : algType K) (orb : eqType) (st : osi) (cre ann : Z -> orb -> A) (T : text -> seq (Z * orb) -> seq (Z * orb) -> bool -> K)
    (orbs : Z -> seq orb) (phi0 : index -> orb),
  [char K] =i pred0 -> ladder_relations st cre ann -> single_reference st -> forall e, wf oprod_ltb e -> operators_ok st T e ->
  opexpr_value st cre ann T orbs phi0 (opexpr_canonicalize st e) = opexpr_value st cre ann T orbs phi0 e.
Proof. exact (fun K A orb st cre ann T orbs phi0 ch HL HS e We Oe => @canon_value K A orb st cre ann ch HL HS (proj1 Oe) T orbs phi0 e (proj1 (proj2 We)) (good_keys Oe)). Qed.
Print Assumptions C80_value.
(** ... and contracting the canonicalized expression gives the same element, with any options, seen through any linear function that
    vanishes outside the range of ranks (or, with all ranks, as it is), ... *)
Theorem C80_contract : forall (K : fieldType) (A : algType K) (orb : eqType) (st : osi) (cre ann : Z -> orb -> A) (T : text -> seq (Z * orb) -> seq (Z * orb) -> bool -> K)
    (orbs : Z -> seq orb) (phi0 : index -> orb) (o o' : wt_opts) (factor : rational) (minr maxr : Z) (V : lmodType K) (f : {linear A -> V}) (e : opexpr) (n : Z) (r r' : expression),
  [char K] =i pred0 -> ladder_relations st cre ann -> single_reference st -> (forall s, uniq (orbs s)) -> canonical factor -> wf oprod_ltb e -> operators_ok st T e ->
  (forall q q', operators_of e q -> operators_of e q' -> twice_at_most st q q') -> legs_at_most e n -> only_ranks st cre ann f n minr maxr ->
  contract_expr o st factor e minr maxr (Ok r) -> contract_expr o' st factor (opexpr_canonicalize st e) minr maxr (Ok r') ->
  f (expr_value (normal_product st cre ann) T orbs phi0 r') = f (expr_value (normal_product st cre ann) T orbs phi0 r).
Proof.
  exact (fun K A orb st cre ann T orbs phi0 o o' factor minr maxr V f e n r r' ch HL HS U Cf => @canon_contract K A orb st cre ann ch HL HS T orbs phi0 U o o' factor minr maxr V f Cf e n r r').
Qed.
Print Assumptions C80_contract.
(** ... so expressions with the same canonical form give the same element, ... *)
Theorem C80_same_form : forall (K : fieldType) (A : algType K) (orb : eqType) (st : osi) (cre ann : Z -> orb -> A) (T : text -> seq (Z * orb) -> seq (Z * orb) -> bool -> K)
    (orbs : Z -> seq orb) (phi0 : index -> orb) (o o' : wt_opts) (factor : rational) (minr maxr : Z) (V : lmodType K) (f : {linear A -> V}) (e1 e2 : opexpr) (n1 n2 : Z) (r1 r2 : expression),
  [char K] =i pred0 -> ladder_relations st cre ann -> single_reference st -> (forall s, uniq (orbs s)) -> canonical factor ->
  wf oprod_ltb e1 -> wf oprod_ltb e2 -> operators_ok st T e1 -> operators_ok st T e2 ->
  (forall q q', operators_of e1 q -> operators_of e1 q' -> twice_at_most st q q') -> (forall q q', operators_of e2 q -> operators_of e2 q' -> twice_at_most st q q') ->
  legs_at_most e1 n1 -> legs_at_most e2 n2 -> only_ranks st cre ann f n1 minr maxr -> only_ranks st cre ann f n2 minr maxr ->
  opexpr_canonicalize st e1 = opexpr_canonicalize st e2 -> contract_expr o st factor e1 minr maxr (Ok r1) -> contract_expr o' st factor e2 minr maxr (Ok r2) ->
  f (expr_value (normal_product st cre ann) T orbs phi0 r1) = f (expr_value (normal_product st cre ann) T orbs phi0 r2).
Proof.
  exact (fun K A orb st cre ann T orbs phi0 o o' factor minr maxr V f e1 e2 n1 n2 r1 r2 ch HL HS U Cf => @same_canon_contract K A orb st cre ann ch HL HS T orbs phi0 U o o' factor minr maxr V f Cf e1 e2 n1 n2 r1 r2).
Qed.
Print Assumptions C80_same_form.
(** ... and contracting the canonicalized expression does return whenever its products have at most 32 legs. *)
Theorem C80_returns : forall st o factor e minr maxr, (length (space_info st) <= max_spaces)%coq_nat -> (forall q, operators_of e q -> proper st q) -> legs_at_most e 32 ->
  exists r, contract_expr o st factor (opexpr_canonicalize st e) minr maxr (Ok r).
Proof. exact canon_returns. Qed.
Print Assumptions C80_returns.

(** ... The same with general spaces, generalized normal-ordered operators and a correlated reference state: the exchanges, ... *)
Theorem C80_general_exchanges : forall (K : fieldType) (A : algType K) (orb : eqType) (st : osi) (cre ann : Z -> orb -> A) (T : text -> seq (Z * orb) -> seq (Z * orb) -> bool -> K)
    (orbs : Z -> seq orb) (phi0 : index -> orb) (maxc : nat) (N : seq (bool * (Z * orb)) -> A),
  ladder_relations st cre ann -> multi_reference st -> generalized_normal_product st cre ann T maxc N -> (length (space_info st) <= max_spaces)%coq_nat ->
  forall a b, proper st a -> proper st b -> ops_commute st a b = true ->
  gop_value st T N orbs phi0 a * gop_value st T N orbs phi0 b = zr K (nsign (Z.mul (op_num a) (op_num b))) *: (gop_value st T N orbs phi0 b * gop_value st T N orbs phi0 a).
Proof. exact (fun K A orb st cre ann T orbs phi0 maxc N HL HS HN L => @gops_commuting K A orb st cre ann HL HS T orbs phi0 maxc N HN L). Qed.
Print Assumptions C80_general_exchanges.
(** ... the value ... *)
Theorem C80_general_value : forall (K : fieldType) (A : algType K) (orb : eqType) (st : osi) (cre ann : Z -> orb -> A) (T : text -> seq (Z * orb) -> seq (Z * orb) -> bool -> K)
    (orbs : Z -> seq orb) (phi0 : index -> orb) (maxc : nat) (N : seq (bool * (Z * orb)) -> A),
  [char K] =i pred0 -> ladder_relations st cre ann -> multi_reference st -> generalized_normal_product st cre ann T maxc N -> forall e, wf oprod_ltb e -> operators_ok st T e ->
  gopexpr_value st T N orbs phi0 (opexpr_canonicalize st e) = gopexpr_value st T N orbs phi0 e.
Proof. exact (fun K A orb st cre ann T orbs phi0 maxc N ch HL HS HN e We Oe => @gcanon_value K A orb st cre ann ch HL HS T orbs phi0 maxc N HN e (proj1 Oe) (proj1 (proj2 We)) (good_keys Oe)). Qed.
Print Assumptions C80_general_value.
(** ... and the contraction. *)
Theorem C80_general_contract : forall (K : fieldType) (A : algType K) (orb : eqType) (st : osi) (cre ann : Z -> orb -> A) (T : text -> seq (Z * orb) -> seq (Z * orb) -> bool -> K)
    (orbs : Z -> seq orb) (phi0 : index -> orb) (maxc : nat) (N : seq (bool * (Z * orb)) -> A) (o o' : wt_opts) (factor : rational) (minr maxr : Z) (V : lmodType K) (f : {linear A -> V}) (e : opexpr) (n : Z) (r r' : expression),
  [char K] =i pred0 -> ladder_relations st cre ann -> multi_reference st -> generalized_normal_product st cre ann T maxc N -> (1 <= maxc)%N -> densities st T -> wt_maxcumulant o = Z.of_nat maxc -> wt_maxcumulant o' = Z.of_nat maxc ->
  (forall s, uniq (orbs s)) -> canonical factor -> wf oprod_ltb e -> operators_ok st T e ->
  (forall q q', operators_of e q -> operators_of e q' -> never_thrice st q q') -> legs_at_most e n -> gonly_ranks st N f n minr maxr ->
  contract_expr o st factor e minr maxr (Ok r) -> contract_expr o' st factor (opexpr_canonicalize st e) minr maxr (Ok r') ->
  f (expr_value N T orbs phi0 r') = f (expr_value N T orbs phi0 r).
Proof.
  exact (fun K A orb st cre ann T orbs phi0 maxc N o o' factor minr maxr V f e n r r' ch HL HS HN M1 HD Em Em' U Cf => @gcanon_contract K A orb st cre ann ch HL HS T orbs phi0 maxc N HN U factor minr maxr V f M1 HD Cf o o' e n r r' Em Em').
Qed.
Print Assumptions C80_general_contract.
(** ... so expressions with the same canonical form give the same element. *)
Theorem C80_general_same_form : forall (K : fieldType) (A : algType K) (orb : eqType) (st : osi) (cre ann : Z -> orb -> A) (T : text -> seq (Z * orb) -> seq (Z * orb) -> bool -> K)
    (orbs : Z -> seq orb) (phi0 : index -> orb) (maxc : nat) (N : seq (bool * (Z * orb)) -> A) (o o' : wt_opts) (factor : rational) (minr maxr : Z) (V : lmodType K) (f : {linear A -> V}) (e1 e2 : opexpr) (n1 n2 : Z) (r1 r2 : expression),
  [char K] =i pred0 -> ladder_relations st cre ann -> multi_reference st -> generalized_normal_product st cre ann T maxc N -> (1 <= maxc)%N -> densities st T -> wt_maxcumulant o = Z.of_nat maxc -> wt_maxcumulant o' = Z.of_nat maxc ->
  (forall s, uniq (orbs s)) -> canonical factor -> wf oprod_ltb e1 -> wf oprod_ltb e2 -> operators_ok st T e1 -> operators_ok st T e2 ->
  (forall q q', operators_of e1 q -> operators_of e1 q' -> never_thrice st q q') -> (forall q q', operators_of e2 q -> operators_of e2 q' -> never_thrice st q q') ->
  legs_at_most e1 n1 -> legs_at_most e2 n2 -> gonly_ranks st N f n1 minr maxr -> gonly_ranks st N f n2 minr maxr -> opexpr_canonicalize st e1 = opexpr_canonicalize st e2 ->
  contract_expr o st factor e1 minr maxr (Ok r1) -> contract_expr o' st factor e2 minr maxr (Ok r2) -> f (expr_value N T orbs phi0 r1) = f (expr_value N T orbs phi0 r2).
Proof.
  exact (fun K A orb st cre ann T orbs phi0 maxc N o o' factor minr maxr V f e1 e2 n1 n2 r1 r2 ch HL HS HN M1 HD Em Em' U Cf => @gsame_canon_contract K A orb st cre ann ch HL HS T orbs phi0 maxc N HN U factor minr maxr V f M1 HD Cf o o' e1 e2 n1 n2 r1 r2 Em Em').
Qed.
Print Assumptions C80_general_same_form.

(** Non-vacuity: ST + TS, whose canonical form is 2 ST. *)
Example C80_nonvacuous : wf oprod_ltb cw_e /\ opexpr_canonicalize ex_st2 cw_e = [:: ([:: cw_S; be_T], mkR 2 1)] /\ operators_ok ex_st2 pe_T cw_e /\
  (forall q q', operators_of cw_e q -> operators_of cw_e q' -> twice_at_most ex_st2 q q') /\ legs_at_most cw_e 4 /\ single_reference ex_st2 /\
  exists r r' (A : algType [fieldType of rat]) (cre ann : Z -> bool -> A) (f : {linear A -> rat^o}), contract_expr (mkWT 100 true) ex_st2 (rat_of_Z 1) cw_e 0 4 (Ok r) /\ contract_expr (mkWT 100 false) ex_st2 (rat_of_Z 1) (opexpr_canonicalize ex_st2 cw_e) 0 4 (Ok r') /\
    ladder_relations ex_st2 cre ann /\ only_ranks ex_st2 cre ann f 4 0 4 /\ reference_state ex_st2 cre ann f.
Proof.
  do 2 (split; first exact: cw_form || exact: cw_wf). split; first exact: cw_operators. split; first exact: cw_twice. split; first exact: cw_legs. split; first exact: pe_single.
  have [r C] := cw_contract. have [r' C'] := cw_contract_canon. have [A [cre [ann [f [H1 H2]]]]] := C48_fock_space [fieldType of rat] [finType of bool] pe_single.
  exists r, r', A, cre, ann, f. do 3 (split=> //). split=> // w _ L [] . lia.
Qed.
(** With a general space and a correlated state: QP = - PQ for operators with one creation operator each. *)
Example C80_general_nonvacuous : wf oprod_ltb cg_e /\ opexpr_canonicalize wg_st cg_e = [:: ([:: cg_P; cg_Q], rat_of_Z (-1))] /\ legs_at_most cg_e 2 /\
  (forall q q', operators_of cg_e q -> operators_of cg_e q' -> never_thrice wg_st q q') /\
  exists (A : algType [fieldType of rat]) (cre ann : Z -> bool -> A) (f : {linear A -> rat^o}) (T : text -> seq (Z * bool) -> seq (Z * bool) -> bool -> rat) (N : seq (bool * (Z * bool)) -> A) r r',
  ladder_relations wg_st cre ann /\ multi_reference wg_st /\ densities wg_st T /\ generalized_normal_product wg_st cre ann T 2 N /\ correlated_state wg_st cre ann T 2 f /\
  operators_ok wg_st T cg_e /\ contract_expr (mkWT 2 true) wg_st (rat_of_Z 1) cg_e 0 0 (Ok r) /\ contract_expr (mkWT 2 true) wg_st (rat_of_Z 1) (opexpr_canonicalize wg_st cg_e) 0 0 (Ok r').
Proof. exact (conj cg_wf (conj cg_form (conj cg_legs (conj cg_thrice cg_case)))). Qed.
