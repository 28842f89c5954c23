(** C74: contracting commutators and Baker-Campbell-Hausdorff series; coupled cluster. *)
Set Warnings "-notation-overridden,-ambiguous-paths".
From Coq Require Import String ZArith QArith List Bool Ascii Lia.
From mathcomp Require Import all_ssreflect ssralg ssrint rat ssrnum.
From Verif Require Import Res RegistryModel RegistryProps CoreModel RationalModel RationalSpec ScalarSem OperatorModel AlgebraModel AlgebraSpec WickSearchModel WickSearchSpec WickEvalModel TextModel EquationModel EquationSpec EinsumSpec CanonSemSpec
  DecimalModel LadderSpec WickProductSpec WickPairSpec WickTheoremSpec WickGeneralSpec WickProductProps PipeSpec PipeProofs7 PipeProofs8 PipeExample BchWickSpec BchWickProofs BchWickProofs4 BchWickProofs5 BchWickProofs6 BchWickProofs7 BchWickExample WickGeneralExample BchWickExample2.
Set Implicit Arguments.
Unset Strict Implicit.
Unset Printing Implicit Defensive.
Import GRing.Theory Num.Theory.
Local Open Scope ring_scope.
Delimit Scope Z_scope with Z.

(** The result for [commutator(a, b1, b2, ...)] is factor times [...[[a,b1],b2],...] (all ranks, or seen through a linear function that
    vanishes on the others), ... *)
Theorem C74_commutators : forall (K : fieldType) (A : algType K) (orb : eqType) (st : osi) (cre ann : Z -> orb -> A) (T : text -> seq (Z * orb) -> seq (Z * orb) -> bool -> K)
    (orbs : Z -> seq orb) (phi0 : index -> orb) (o : wt_opts) (factor : rational) (minr maxr : Z) (V : lmodType K) (f : {linear A -> V}) (a : opexpr) (l : seq opexpr) (na : Z) (ns : seq Z) (r0 : opexpr) (r : expression),
  [char K] =i pred0 -> ladder_relations st cre ann -> single_reference st -> (forall s, uniq (orbs s)) -> canonical factor ->
  wf oprod_ltb a -> List.Forall (wf oprod_ltb) l -> (forall e, In e (a :: l) -> operators_ok st T e) ->
  (forall q q' e e', In e (a :: l) -> In e' (a :: l) -> operators_of e q -> operators_of e' q' -> twice_at_most st q q') ->
  legs_at_most a na -> List.Forall2 legs_at_most l ns -> only_ranks st cre ann f (na + fold_right Z.add 0 ns)%Z minr maxr ->
  commutator_args (a :: l) = Ok r0 -> contract_expr o st factor r0 minr maxr (Ok r) ->
  f (expr_value (normal_product st cre ann) T orbs phi0 r) =
    ratK K factor *: f (commutators_of (opexpr_value st cre ann T orbs phi0 a) [seq opexpr_value st cre ann T orbs phi0 b | b <- l]).
Proof.
  exact (fun K A orb st cre ann T orbs phi0 o factor minr maxr V f a l na ns r0 r ch HL HS U Cf => @contract_commutators K A orb st cre ann ch HL HS T orbs phi0 U o factor minr maxr V f Cf a l na ns r0 r).
Qed.
Print Assumptions C74_commutators.
(** ... for [bch_series(a, b, n)] the sum of the first n+1 terms of a + [a,b] + [[a,b],b]/2! + ..., ... *)
Theorem C74_bch : forall (K : fieldType) (A : algType K) (orb : eqType) (st : osi) (cre ann : Z -> orb -> A) (T : text -> seq (Z * orb) -> seq (Z * orb) -> bool -> K)
    (orbs : Z -> seq orb) (phi0 : index -> orb) (o : wt_opts) (factor : rational) (minr maxr : Z) (V : lmodType K) (f : {linear A -> V}) (a b : opexpr) (n : nat) (na nb : Z) (r0 : opexpr) (r : expression),
  [char K] =i pred0 -> ladder_relations st cre ann -> single_reference st -> (forall s, uniq (orbs s)) -> canonical factor ->
  wf oprod_ltb a -> wf oprod_ltb b -> operators_ok st T a -> operators_ok st T b ->
  (forall q q', operators_of a q \/ operators_of b q -> operators_of a q' \/ operators_of b q' -> twice_at_most st q q') ->
  legs_at_most a na -> legs_at_most b nb -> (0 <= nb)%Z -> only_ranks st cre ann f (na + Z.of_nat n * nb)%Z minr maxr ->
  bch_series a b (Z.of_nat n) = Ok r0 -> contract_expr o st factor r0 minr maxr (Ok r) ->
  f (expr_value (normal_product st cre ann) T orbs phi0 r) =
    ratK K factor *: f (bch_sum (opexpr_value st cre ann T orbs phi0 a) (opexpr_value st cre ann T orbs phi0 b) n).
Proof.
  exact (fun K A orb st cre ann T orbs phi0 o factor minr maxr V f a b n na nb r0 r ch HL HS U Cf => @contract_bch K A orb st cre ann ch HL HS T orbs phi0 U o factor minr maxr V f Cf a b n na nb r0 r).
Qed.
Print Assumptions C74_bch.
(** ... also with general spaces, generalized normal-ordered operators and a correlated reference state. *)
Theorem C74_general_bch : forall (K : fieldType) (A : algType K) (orb : eqType) (st : osi) (cre ann : Z -> orb -> A) (T : text -> seq (Z * orb) -> seq (Z * orb) -> bool -> K)
    (orbs : Z -> seq orb) (phi0 : index -> orb) (maxc : nat) (N : seq (bool * (Z * orb)) -> A) (o : wt_opts) (factor : rational) (minr maxr : Z) (V : lmodType K) (f : {linear A -> V})
    (a b : opexpr) (n : nat) (na nb : Z) (r0 : opexpr) (r : expression),
  [char K] =i pred0 -> ladder_relations st cre ann -> multi_reference st -> (1 <= maxc)%N -> wt_maxcumulant o = Z.of_nat maxc -> densities st T -> generalized_normal_product st cre ann T maxc N ->
  (forall s, uniq (orbs s)) -> canonical factor -> wf oprod_ltb a -> wf oprod_ltb b -> operators_ok st T a -> operators_ok st T b ->
  (forall q q', operators_of a q \/ operators_of b q -> operators_of a q' \/ operators_of b q' -> never_thrice st q q') ->
  legs_at_most a na -> legs_at_most b nb -> (0 <= nb)%Z -> gonly_ranks st N f (na + Z.of_nat n * nb)%Z minr maxr ->
  bch_series a b (Z.of_nat n) = Ok r0 -> contract_expr o st factor r0 minr maxr (Ok r) ->
  f (expr_value N T orbs phi0 r) = ratK K factor *: f (bch_sum (gopexpr_value st T N orbs phi0 a) (gopexpr_value st T N orbs phi0 b) n).
Proof.
  exact (fun K A orb st cre ann T orbs phi0 maxc N o factor minr maxr V f a b n na nb r0 r ch HL HS M1 Em HD HN U Cf =>
    @contract_gbch K A orb st cre ann ch HL HS T orbs phi0 U maxc N o factor minr maxr V f M1 Em HD HN Cf a b n na nb r0 r).
Qed.
Print Assumptions C74_general_bch.
(** The expectation value in a correlated state. *)
Theorem C74_correlated_energy : forall (K : fieldType) (A : algType K) (orb : eqType) (st : osi) (cre ann : Z -> orb -> A) (T : text -> seq (Z * orb) -> seq (Z * orb) -> bool -> K)
    (orbs : Z -> seq orb) (phi0 : index -> orb) (maxc : nat) (N : seq (bool * (Z * orb)) -> A) (o : wt_opts) (factor : rational) (f : {linear A -> K^o})
    (a b : opexpr) (n : nat) (na nb : Z) (r0 : opexpr) (r : expression),
  [char K] =i pred0 -> ladder_relations st cre ann -> multi_reference st -> (1 <= maxc)%N -> wt_maxcumulant o = Z.of_nat maxc -> densities st T -> generalized_normal_product st cre ann T maxc N ->
  correlated_state st cre ann T maxc f -> (forall s, uniq (orbs s)) -> canonical factor -> wf oprod_ltb a -> wf oprod_ltb b -> operators_ok st T a -> operators_ok st T b ->
  (forall q q', operators_of a q \/ operators_of b q -> operators_of a q' \/ operators_of b q' -> never_thrice st q q') ->
  legs_at_most a na -> legs_at_most b nb -> (0 <= nb)%Z -> bch_series a b (Z.of_nat n) = Ok r0 -> contract_expr o st factor r0 0%Z 0%Z (Ok r) ->
  expr_value (@no_operators K orb) T orbs phi0 r = ratK K factor * f (bch_sum (gopexpr_value st T N orbs phi0 a) (gopexpr_value st T N orbs phi0 b) n).
Proof. exact contract_gexpectation. Qed.
Print Assumptions C74_correlated_energy.
(** Operators with at most two creation and two annihilation operators per space (two-body Hamiltonians) and, for b, excitations of any kind
    meet the condition on pairs. *)
Theorem C74_pairs : forall (st : osi) (a b : opexpr),
  (forall o, operators_of a o -> two_body st o) -> (forall o, operators_of b o -> two_body st o \/ only_excites st o) ->
  forall q q', operators_of a q \/ operators_of b q -> operators_of a q' \/ operators_of b q' -> twice_at_most st q q'.
Proof. exact two_body_links. Qed.
Print Assumptions C74_pairs.

(** A cluster operator is nilpotent, ... *)
Theorem C74_nilpotent : forall (K : fieldType) (A : algType K) (orb : eqType) (st : osi) (cre ann : Z -> orb -> A) (T : text -> seq (Z * orb) -> seq (Z * orb) -> bool -> K)
    (orbs : Z -> seq orb) (phi0 : index -> orb) (b : opexpr),
  [char K] =i pred0 -> ladder_relations st cre ann -> single_reference st -> operators_ok st T b -> cluster_operator st b -> exists m, opexpr_value st cre ann T orbs phi0 b ^+ m = 0.
Proof. exact (fun K A orb st cre ann T orbs phi0 b ch HL HS => @cluster_nilpotent K A orb st cre ann ch HL HS T orbs phi0 b). Qed.
Print Assumptions C74_nilpotent.
(** ... and [bch_series(a, b, n)] is exp(-b) a exp(b), exactly, as soon as n is not less than the number of legs of a (4 for a two-body
    Hamiltonian). *)
Theorem C74_exact : forall (K : fieldType) (A : algType K) (orb : eqType) (st : osi) (cre ann : Z -> orb -> A) (T : text -> seq (Z * orb) -> seq (Z * orb) -> bool -> K)
    (orbs : Z -> seq orb) (phi0 : index -> orb) (a b : opexpr) (d n m : nat) (r0 : opexpr),
  [char K] =i pred0 -> ladder_relations st cre ann -> single_reference st -> wf oprod_ltb a -> wf oprod_ltb b -> operators_ok st T a -> operators_ok st T b -> cluster_operator st b ->
  legs_at_most a (Z.of_nat d) -> (d <= n)%N -> opexpr_value st cre ann T orbs phi0 b ^+ m = 0 -> bch_series a b (Z.of_nat n) = Ok r0 ->
  opexpr_value st cre ann T orbs phi0 r0 =
    exponential m (- opexpr_value st cre ann T orbs phi0 b) * opexpr_value st cre ann T orbs phi0 a * exponential m (opexpr_value st cre ann T orbs phi0 b).
Proof. exact (fun K A orb st cre ann T orbs phi0 a b d n m r0 ch HL HS => @series_exact K A orb st cre ann T orbs phi0 ch HL HS a b d n m r0). Qed.
Print Assumptions C74_exact.
(** So is the contracted expression: through every linear function that sees no other ranks ... *)
Theorem C74_similarity_transform : forall (K : fieldType) (A : algType K) (orb : eqType) (st : osi) (cre ann : Z -> orb -> A) (T : text -> seq (Z * orb) -> seq (Z * orb) -> bool -> K)
    (orbs : Z -> seq orb) (phi0 : index -> orb) (o : wt_opts) (factor : rational) (minr maxr : Z) (V : lmodType K) (f : {linear A -> V}) (a b : opexpr) (n d : nat) (nb : Z) (r0 : opexpr) (r : expression) (m : nat),
  [char K] =i pred0 -> ladder_relations st cre ann -> single_reference st -> (forall s, uniq (orbs s)) -> canonical factor ->
  wf oprod_ltb a -> wf oprod_ltb b -> operators_ok st T a -> operators_ok st T b -> (forall q, operators_of a q -> two_body st q) -> cluster_operator st b ->
  legs_at_most a (Z.of_nat d) -> (d <= n)%N -> legs_at_most b nb -> (0 <= nb)%Z -> only_ranks st cre ann f (Z.of_nat d + Z.of_nat n * nb)%Z minr maxr ->
  opexpr_value st cre ann T orbs phi0 b ^+ m = 0 -> bch_series a b (Z.of_nat n) = Ok r0 -> contract_expr o st factor r0 minr maxr (Ok r) ->
  f (expr_value (normal_product st cre ann) T orbs phi0 r) =
    ratK K factor *: f (exponential m (- opexpr_value st cre ann T orbs phi0 b) * opexpr_value st cre ann T orbs phi0 a * exponential m (opexpr_value st cre ann T orbs phi0 b)).
Proof.
  exact (fun K A orb st cre ann T orbs phi0 o factor minr maxr V f a b n d nb r0 r m ch HL HS U Cf => @contract_exact K A orb st cre ann ch HL HS T orbs phi0 U o factor minr maxr V f Cf a b n d nb r0 r m).
Qed.
Print Assumptions C74_similarity_transform.
(** ... (the coupled-cluster amplitude equations), and at rank 0 the expression is the coupled-cluster energy <exp(-b) a exp(b)>, ... *)
Theorem C74_energy : forall (K : fieldType) (A : algType K) (orb : eqType) (st : osi) (cre ann : Z -> orb -> A) (T : text -> seq (Z * orb) -> seq (Z * orb) -> bool -> K)
    (orbs : Z -> seq orb) (phi0 : index -> orb) (o : wt_opts) (factor : rational) (f : {linear A -> K^o}) (a b : opexpr) (n d : nat) (nb : Z) (r0 : opexpr) (r : expression) (m : nat),
  [char K] =i pred0 -> ladder_relations st cre ann -> single_reference st -> (forall s, uniq (orbs s)) -> canonical factor -> reference_state st cre ann f ->
  wf oprod_ltb a -> wf oprod_ltb b -> operators_ok st T a -> operators_ok st T b -> (forall q, operators_of a q -> two_body st q) -> cluster_operator st b ->
  legs_at_most a (Z.of_nat d) -> (d <= n)%N -> legs_at_most b nb -> (0 <= nb)%Z ->
  opexpr_value st cre ann T orbs phi0 b ^+ m = 0 -> bch_series a b (Z.of_nat n) = Ok r0 -> contract_expr o st factor r0 0%Z 0%Z (Ok r) ->
  expr_value (@no_operators K orb) T orbs phi0 r =
    ratK K factor * f (exponential m (- opexpr_value st cre ann T orbs phi0 b) * opexpr_value st cre ann T orbs phi0 a * exponential m (opexpr_value st cre ann T orbs phi0 b)).
Proof.
  exact (fun K A orb st cre ann T orbs phi0 o factor f a b n d nb r0 r m ch HL HS U Cf Rf => @contract_energy K A orb st cre ann ch HL HS T orbs phi0 U o factor f Cf Rf a b n d nb r0 r m).
Qed.
Print Assumptions C74_energy.
(** ... which is what the generated numpy program computes. *)
Theorem C74_program : forall (K : fieldType) (A : algType K) (orb : eqType) (orbital : Z -> nat -> orb) (st : osi) (cre ann : Z -> orb -> A)
    (T : text -> seq (Z * orb) -> seq (Z * orb) -> bool -> K) (dim : Z -> nat) (phi0 : index -> orb) (tens : text -> text -> array K) (number : text -> K) (label : text)
    (o : wt_opts) (factor : rational) (f : {linear A -> K^o}) (a b : opexpr) (n d : nat) (nb : Z) (r0 : opexpr) (r : expression) (m : nat) prog,
  [char K] =i pred0 -> ladder_relations st cre ann -> single_reference st -> program_registry st -> plain label -> reads_numbers number -> (forall s, uniq (all_orbitals orbital dim s)) ->
  canonical factor -> reference_state st cre ann f ->
  wf oprod_ltb a -> wf oprod_ltb b -> operators_ok st T a -> operators_ok st T b -> (forall q, operators_of a q -> two_body st q) -> cluster_operator st b ->
  legs_at_most a (Z.of_nat d) -> (d <= n)%N -> legs_at_most b nb -> (0 <= nb)%Z -> opexpr_value st cre ann T (all_orbitals orbital dim) phi0 b ^+ m = 0 -> (Z.of_nat d + Z.of_nat n * nb <= 52)%Z ->
  (forall q, operators_of a q \/ operators_of b q -> plain (op_label q)) -> (forall x, In x a -> x.1 <> [::]) ->
  bch_series a b (Z.of_nat n) = Ok r0 -> contract_expr o st factor r0 0%Z 0%Z (Ok r) -> program_data dim st tens (elements_at orbital T) r -> (forall x, In x r -> short x.2) ->
  generates einsum_factor st label r prog ->
  computes tens number label prog (ratK K factor * f (exponential m (- opexpr_value st cre ann T (all_orbitals orbital dim) phi0 b) *
    opexpr_value st cre ann T (all_orbitals orbital dim) phi0 a * exponential m (opexpr_value st cre ann T (all_orbitals orbital dim) phi0 b))).
Proof.
  exact (fun K A orb orbital st cre ann T dim phi0 tens number label o factor f a b n d nb r0 r m prog ch HL HS PR Pl Hn U Cf Rf =>
    @program_energy K A orb orbital st cre ann T dim phi0 tens number label ch HL HS PR Pl Hn U o factor f Cf Rf a b n d nb r0 r m prog).
Qed.
Print Assumptions C74_program.
(** The calls return, without an exception, up to 32 legs in each product of the series. *)
Theorem C74_returns : forall (K : fieldType) (orb : eqType) st (T : text -> seq (Z * orb) -> seq (Z * orb) -> bool -> K) o factor a b (n : nat) na nb minr maxr, wf oprod_ltb a -> wf oprod_ltb b ->
  operators_ok st T a -> operators_ok st T b -> legs_at_most a na -> legs_at_most b nb -> (0 <= nb)%Z -> (na + Z.of_nat n * nb <= 32)%Z ->
  exists r0 r, bch_series a b (Z.of_nat n) = Ok r0 /\ contract_expr o st factor r0 minr maxr (Ok r).
Proof. exact series_returns. Qed.
Print Assumptions C74_returns.

(** ** A case *)
Example C74_nonvacuous : wf oprod_ltb be_a /\ wf oprod_ltb be_b /\ operators_ok ex_st2 pe_T be_a /\ operators_ok ex_st2 pe_T be_b /\ (forall q, operators_of be_a q -> two_body ex_st2 q) /\ cluster_operator ex_st2 be_b /\
  legs_at_most be_a 2 /\ legs_at_most be_b 2 /\ bch_series be_a be_b 2 = Ok be_r0 /\ contract_expr be_o ex_st2 (rat_of_Z 1) be_r0 0 0 (Ok pe_r) /\
  program_registry ex_st2 /\ single_reference ex_st2 /\ program_data pe_dim ex_st2 pe_tens (elements_at pe_orbital pe_T) pe_r /\ (forall x, In x pe_r -> short x.2) /\ generates einsum_factor ex_st2 pe_label pe_r pe_prog /\
  (forall s, uniq (all_orbitals pe_orbital pe_dim s)) /\ (forall q, operators_of be_a q \/ operators_of be_b q -> plain (op_label q)) /\ reads_numbers (@number_of [fieldType of rat]) /\
  exists (A : algType [fieldType of rat]) (cre ann : Z -> bool -> A) (f : {linear A -> rat^o}), ladder_relations ex_st2 cre ann /\ reference_state ex_st2 cre ann f.
Proof.
  case: be_wf => W1 W2. case: be_operators => O1 O2. case: be_legs => L1 L2.
  do 5 (split; first by [|exact: be_two_body]). split; first exact: be_cluster. do 2 (split; first by []). split; first exact: be_series. split; first exact: be_contract. split; first exact: pe_registry. split; first exact: pe_single. split; first exact: pe_data.
  split; first exact: pe_short. split; first exact: pe_generates. split; first by []. split; first exact: be_plain. split; first exact: (number_reads (Num.Theory.char_num _)).
  exact: (C48_fock_space _ [finType of bool] pe_single).
Qed.
(** With a general space: F and G, in a state where the two orbitals of the general space are both empty or both occupied. *)
Example C74_general_nonvacuous : (wf oprod_ltb bg_a /\ wf oprod_ltb bg_b) /\ (legs_at_most bg_a 2 /\ legs_at_most bg_b 2) /\
  (forall q q', operators_of bg_a q \/ operators_of bg_b q -> operators_of bg_a q' \/ operators_of bg_b q' -> never_thrice wg_st q q') /\
  exists (A : algType [fieldType of rat]) (cre ann : Z -> bool -> A) (f : {linear A -> rat^o}) (T : text -> seq (Z * bool) -> seq (Z * bool) -> bool -> rat) (N : seq (bool * (Z * bool)) -> A) r0 r,
  ladder_relations wg_st cre ann /\ multi_reference wg_st /\ densities wg_st T /\ generalized_normal_product wg_st cre ann T 2 N /\ correlated_state wg_st cre ann T 2 f /\
  operators_ok wg_st T bg_a /\ operators_ok wg_st T bg_b /\ bch_series bg_a bg_b 3 = Ok r0 /\ contract_expr (mkWT 2 true) wg_st (rat_of_Z 1) r0 0 0 (Ok r).
Proof. exact (conj bg_wf (conj bg_legs (conj bg_thrice bg_case))). Qed.
