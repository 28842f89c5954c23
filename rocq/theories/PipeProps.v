(** C73: running the generated numpy program gives the product of the operators. *)
Set Warnings "-notation-overridden,-ambiguous-paths".
From Coq Require Import String ZArith QArith List Bool Ascii Lia.
From mathcomp Require Import all_ssreflect ssralg ssrint rat order ssrnum.
From Verif Require Import Res RegistryModel RegistryProofs RegistryProps CoreModel RationalModel RationalSpec SortSpec ScalarSem OperatorModel AlgebraModel AlgebraSpec WickSearchModel WickSearchSpec WickEvalModel WickLinearProofs TextModel TextSpec EquationModel EquationSpec EinsumSpec CanonSemSpec
  DecimalModel DecimalSpec LadderSpec WickProductSpec WickPairSpec WickTheoremSpec WickGeneralSpec WickProductProps ContractShapeProps PipeSpec PipeProofs4 PipeProofs5 PipeProofs6 PipeProofs7 PipeProofs8 PipeExample.
Set Implicit Arguments.
Unset Strict Implicit.
Unset Printing Implicit Defensive.
Import GRing.Theory Order.Theory Num.Theory.
Local Open Scope ring_scope.
Delimit Scope Z_scope with Z.
Delimit Scope Q_scope with Q.

(** The many-body equations of a result of [contract] compile to programs that run: for every key, on every memory in which the array
    it adds to has the shape that belongs to the key. *)
Theorem C73_runs : forall (K : fieldType) (T : text -> seq (Z * nat) -> seq (Z * nat) -> bool -> K) (dim : Z -> nat) (tens : text -> text -> array K) (number : text -> K)
    (st : osi) (label : text) (o : wt_opts) (factor : rational) (e : opexpr) (minr maxr : Z) (r : expression),
  program_registry st -> plain label -> (forall y, In y e -> program_product st y.1) -> contract_expr o st factor e minr maxr (Ok r) -> program_data dim st tens T r ->
  exists prog, generates einsum_factor st label r prog /\ (exists v, run_of dim st tens number label prog v) /\
    forall k p v, In (k, p) prog -> shape (v (key_name label k)) = [seq dim s | s <- key_upper st k ++ key_lower st k] -> exists v', executes tens number p v v'.
Proof.
  exact (fun K T dim tens number st label o factor e minr maxr r PR Pl Hp C Hd => match PR with conj R (conj G al) => let Rr := ready_expr Hp C Hd in
    let: ex_intro prog Gp := generates_exists (fun _ => 0%N) R G al Pl Rr in
    ex_intro _ prog (conj Gp (conj (program_total number (fun _ => 0%N) R G al Pl Rr Gp) (fun k p v => @program_runs K T dim st tens number (fun _ => 0%N) label einsum_factor R G al Pl r Rr prog k p v Gp))) end).
Qed.
Print Assumptions C73_runs.
(** A statement has one reading and a program one effect. *)
Theorem C73_deterministic : forall (K : comRingType) (tens : text -> text -> array K) (number : text -> K) (p : seq text) (v v1 v2 : memory K),
  executes tens number p v v1 -> executes tens number p v v2 -> forall n, shape (v1 n) = shape (v2 n) /\ forall ps, elem (v1 n) ps = elem (v2 n) ps.
Proof. exact (fun K tens number p v v1 v2 => @executes_det K tens number p v v v1 v2 (fun n => conj (erefl _) (fun ps => erefl _))). Qed.
Print Assumptions C73_deterministic.
(** The arrays computed from zero, each element times the operators of its position, add up to the terms of the result, each with its
    coefficient as it is written in the program, ... *)
Theorem C73_program : forall (K : fieldType) (V : lmodType K) (W : seq (bool * (Z * nat)) -> V) (T : text -> seq (Z * nat) -> seq (Z * nat) -> bool -> K) (dim : Z -> nat) (phi0 : index -> nat)
    (tens : text -> text -> array K) (number : text -> K) (st : osi) (label : text) (o : wt_opts) (factor : rational) (e : opexpr) (minr maxr : Z) (r : expression) prog v,
  program_registry st -> plain label -> (forall y, In y e -> program_product st y.1) -> contract_expr o st factor e minr maxr (Ok r) -> program_data dim st tens T r ->
  generates einsum_factor st label r prog -> run_of dim st tens number label prog v ->
  \sum_(kp <- prog) array_operator W dim (key_upper st kp.1) (key_lower st kp.1) (v kp.1 (key_name label kp.1)) =
    \sum_(x <- r) number (einsum_factor x.2) *: term_value W T (fun s => seq.iota 0 (dim s)) phi0 x.1.
Proof.
  exact (fun K V W T dim phi0 tens number st label o factor e minr maxr r prog v PR Pl Hp C Hd Gp Rv => match PR with conj R (conj G al) => esym (program_value W phi0 R G al Pl (ready_expr Hp C Hd) Gp Rv) end).
Qed.
Print Assumptions C73_program.
(** ... and so, if the coefficients have at most 9 decimals, to the product of the operators (normal-ordered operators with respect to a
    determinant; all ranks, or seen through a linear function that vanishes on the others). *)
Theorem C73_product : forall (K : fieldType) (A : algType K) (orb : eqType) (orbital : Z -> nat -> orb) (st : osi) (cre ann : Z -> orb -> A)
    (T : text -> seq (Z * orb) -> seq (Z * orb) -> bool -> K) (dim : Z -> nat) (phi0 : index -> orb) (tens : text -> text -> array K) (number : text -> K) (label : text)
    (o : wt_opts) (factor : rational) (e : opexpr) (minr maxr : Z) (r : expression) prog v (V : lmodType K) (f : {linear A -> V}),
  [char K] =i pred0 -> ladder_relations st cre ann -> single_reference st -> (forall s, uniq (all_orbitals orbital dim s)) -> canonical factor -> mcanon e ->
  (forall x, In x e -> product_ok st T x.1 /\ only_ranks st cre ann f (ops_rank x.1) minr maxr) -> contract_expr o st factor e minr maxr (Ok r) ->
  program_registry st -> plain label -> (forall y, In y e -> program_product st y.1) -> program_data dim st tens (elements_at orbital T) r -> reads_numbers number -> (forall x, In x r -> short x.2) ->
  generates einsum_factor st label r prog -> run_of dim st tens number label prog v ->
  f (\sum_(kp <- prog) array_operator (fun w => normal_product st cre ann (operators_at orbital w)) dim (key_upper st kp.1) (key_lower st kp.1) (v kp.1 (key_name label kp.1))) =
    ratK K factor *: f (opexpr_value st cre ann T (all_orbitals orbital dim) phi0 e).
Proof.
  exact (fun K A orb orbital st cre ann T dim phi0 tens number label o factor e minr maxr r prog v V f ch HL HS U Cf Ce He C PR Pl Hp Hd Hn Sr Gp Rv =>
    @pipe_product K A orb orbital st cre ann T dim phi0 tens number label ch HL PR Pl Hn U o factor minr maxr r prog v Cf Hd Sr Gp Rv e Ce Hp C V f HS He).
Qed.
Print Assumptions C73_product.
(** The same with general spaces and a correlated reference state. *)
Theorem C73_general_product : forall (K : fieldType) (A : algType K) (orb : eqType) (orbital : Z -> nat -> orb) (st : osi) (cre ann : Z -> orb -> A)
    (T : text -> seq (Z * orb) -> seq (Z * orb) -> bool -> K) (dim : Z -> nat) (phi0 : index -> orb) (tens : text -> text -> array K) (number : text -> K) (label : text) (maxc : nat) (N : seq (bool * (Z * orb)) -> A)
    (o : wt_opts) (factor : rational) (e : opexpr) (minr maxr : Z) (r : expression) prog v (V : lmodType K) (f : {linear A -> V}),
  [char K] =i pred0 -> ladder_relations st cre ann -> multi_reference st -> (1 <= maxc)%N -> wt_maxcumulant o = Z.of_nat maxc -> densities st T -> generalized_normal_product st cre ann T maxc N ->
  (forall s, uniq (all_orbitals orbital dim s)) -> canonical factor -> mcanon e ->
  (forall x, In x e -> gproduct_ok st T maxc x.1 /\ gonly_ranks st N f (ops_rank x.1) minr maxr) -> contract_expr o st factor e minr maxr (Ok r) ->
  program_registry st -> plain label -> (forall y, In y e -> program_product st y.1) -> program_data dim st tens (elements_at orbital T) r -> reads_numbers number -> (forall x, In x r -> short x.2) ->
  generates einsum_factor st label r prog -> run_of dim st tens number label prog v ->
  f (\sum_(kp <- prog) array_operator (fun w => N (operators_at orbital w)) dim (key_upper st kp.1) (key_lower st kp.1) (v kp.1 (key_name label kp.1))) =
    ratK K factor *: f (gopexpr_value st T N (all_orbitals orbital dim) phi0 e).
Proof.
  exact (fun K A orb orbital st cre ann T dim phi0 tens number label maxc N o factor e minr maxr r prog v V f ch HL HS M1 Em HD HN U Cf Ce He C PR Pl Hp Hd Hn Sr Gp Rv =>
    @pipe_gproduct K A orb orbital st cre ann T dim phi0 tens number label ch HL PR Pl Hn U o factor minr maxr r prog v Cf Hd Sr Gp Rv e Ce Hp C V f maxc N HS M1 Em HD HN He).
Qed.
Print Assumptions C73_general_product.
(** Rank 0: the program leaves the expectation value in the variable [label] ([computes], PipeSpec.v). *)
Theorem C73_expectation_value : forall (K : fieldType) (A : algType K) (orb : eqType) (orbital : Z -> nat -> orb) (st : osi) (cre ann : Z -> orb -> A)
    (T : text -> seq (Z * orb) -> seq (Z * orb) -> bool -> K) (dim : Z -> nat) (phi0 : index -> orb) (tens : text -> text -> array K) (number : text -> K) (label : text)
    (o : wt_opts) (factor : rational) (ops : oprod) (r : expression) prog (f : {linear A -> K^o}),
  [char K] =i pred0 -> ladder_relations st cre ann -> single_reference st -> reference_state st cre ann f -> (forall s, uniq (all_orbitals orbital dim s)) ->
  product_ok st T ops -> canonical factor -> contract o st factor ops 0%Z 0%Z (Ok r) ->
  program_registry st -> plain label -> program_product st ops -> program_data dim st tens (elements_at orbital T) r -> reads_numbers number -> (forall x, In x r -> short x.2) ->
  generates einsum_factor st label r prog -> computes tens number label prog (ratK K factor * f (product_value st cre ann T (all_orbitals orbital dim) phi0 ops)).
Proof.
  exact (fun K A orb orbital st cre ann T dim phi0 tens number label o factor ops r prog f ch HL HS Rf U P Cf C PR Pl Pp Hd Hn Sr Gp =>
    @pipe_energy K A orb orbital st cre ann T dim phi0 tens number label ch HL PR Pl Hn U o factor ops r prog f Cf Pp C Hd Sr Gp HS Rf P).
Qed.
Print Assumptions C73_expectation_value.
Theorem C73_general_expectation_value : forall (K : fieldType) (A : algType K) (orb : eqType) (orbital : Z -> nat -> orb) (st : osi) (cre ann : Z -> orb -> A)
    (T : text -> seq (Z * orb) -> seq (Z * orb) -> bool -> K) (dim : Z -> nat) (phi0 : index -> orb) (tens : text -> text -> array K) (number : text -> K) (label : text) (maxc : nat) (N : seq (bool * (Z * orb)) -> A)
    (o : wt_opts) (factor : rational) (ops : oprod) (r : expression) prog (f : {linear A -> K^o}),
  [char K] =i pred0 -> ladder_relations st cre ann -> multi_reference st -> (1 <= maxc)%N -> wt_maxcumulant o = Z.of_nat maxc -> densities st T -> generalized_normal_product st cre ann T maxc N ->
  correlated_state st cre ann T maxc f -> (forall s, uniq (all_orbitals orbital dim s)) -> gproduct_ok st T maxc ops -> canonical factor -> contract o st factor ops 0%Z 0%Z (Ok r) ->
  program_registry st -> plain label -> program_product st ops -> program_data dim st tens (elements_at orbital T) r -> reads_numbers number -> (forall x, In x r -> short x.2) ->
  generates einsum_factor st label r prog -> computes tens number label prog (ratK K factor * f (gproduct_value st T N (all_orbitals orbital dim) phi0 ops)).
Proof.
  exact (fun K A orb orbital st cre ann T dim phi0 tens number label maxc N o factor ops r prog f ch HL HS M1 Em HD HN HC U P Cf C PR Pl Pp Hd Hn Sr Gp =>
    @pipe_genergy K A orb orbital st cre ann T dim phi0 tens number label ch HL PR Pl Hn U o factor ops r prog f Cf Pp C Hd Sr Gp maxc N HS M1 Em HD HN HC P).
Qed.
Print Assumptions C73_general_expectation_value.
(** With other coefficients it is off by at most half a unit of the 9th decimal (and the error of a double) times the value of each term. *)
Theorem C73_rounding : forall (K : realFieldType) (A : algType K) (orb : eqType) (orbital : Z -> nat -> orb) (st : osi) (cre ann : Z -> orb -> A)
    (T : text -> seq (Z * orb) -> seq (Z * orb) -> bool -> K) (dim : Z -> nat) (phi0 : index -> orb) (tens : text -> text -> array K) (number : text -> K) (label : text)
    (o : wt_opts) (factor : rational) (ops : oprod) (r : expression) (f : {linear A -> K^o}) p v0 v,
  ladder_relations st cre ann -> single_reference st -> reference_state st cre ann f -> product_ok st T ops -> (forall s, uniq (all_orbitals orbital dim s)) ->
  program_registry st -> plain label -> canonical factor -> program_product st ops -> contract o st factor ops 0%Z 0%Z (Ok r) -> program_data dim st tens (elements_at orbital T) r -> reads_numbers number ->
  generates einsum_factor st label r [:: (str "|", p)] -> shape (v0 label) = [::] -> elem (v0 label) [::] = 0 -> executes tens number p v0 v ->
  `|elem (v label) [::] - ratK K factor * f (product_value st cre ann T (all_orbitals orbital dim) phi0 ops)| <=
    \sum_(x <- r) (qK K (1 # 2000000000) + `|ratK K x.2| * qK K (1 # 2 ^ 51)) * `|term_value (@no_operators K orb) T (all_orbitals orbital dim) phi0 x.1|.
Proof. exact pipe_error. Qed.
Print Assumptions C73_rounding.
(** Numbers can be read as required. *)
Theorem C73_reader : forall K : fieldType, [char K] =i pred0 -> exists number : text -> K, reads_numbers number.
Proof. exact (fun K ch => ex_intro _ _ (number_reads ch)). Qed.
Print Assumptions C73_reader.
(** Keys with as many upper as lower spaces name different arrays, ... *)
Theorem C73_names : forall label k k', In "|"%char k -> In "|"%char k' -> size (split_bar k).1 = size (split_bar k).2 -> size (split_bar k').1 = size (split_bar k').2 ->
  key_name label k = key_name label k' -> k = k'.
Proof. exact names_inj. Qed.
Print Assumptions C73_names.
(** ... but other keys of one expression can share theirs: these programs add different parts of the expression to the same variable. *)
Theorem C73_names_refuted : exists r prog k p k' p' t t' s s', generates einsum_factor ex_st2 (str "R") r prog /\ In (k, p) prog /\ In (k', p') prog /\ k <> k' /\
  In t p /\ In t' p' /\ reads_as t s /\ reads_as t' s' /\ sm_name s = sm_name s'.
Proof.
  exact names_clash.
Qed.
Print Assumptions C73_names_refuted.

(** ** A case *)
Example C73_nonvacuous : program_registry ex_st2 /\ plain pe_label /\ program_product ex_st2 cs_ops /\ contract (mkWT 100 false) ex_st2 (rat_of_Z 1) cs_ops 0%Z 0%Z (Ok pe_r) /\
  contract_expr (mkWT 100 false) ex_st2 (rat_of_Z 1) [:: (cs_ops, rat_of_Z 1)] 0%Z 0%Z (Ok pe_r) /\ program_data pe_dim ex_st2 pe_tens (elements_at pe_orbital pe_T) pe_r /\
  reads_numbers (@number_of [fieldType of rat]) /\ (forall x, In x pe_r -> short x.2) /\ generates einsum_factor ex_st2 pe_label pe_r pe_prog /\ single_reference ex_st2 /\ product_ok ex_st2 pe_T cs_ops /\
  (forall s, uniq (all_orbitals pe_orbital pe_dim s)) /\ pe_prog = [:: (str "|", [:: str "R += 1.000000000 * np.einsum(""ai,ia->"",F[""vo""],T[""ov""],optimize=""optimal"")"])] /\
  exists (A : algType [fieldType of rat]) (cre ann : Z -> bool -> A) (f : {linear A -> rat^o}), ladder_relations ex_st2 cre ann /\ reference_state ex_st2 cre ann f.
Proof.
  split; first exact: pe_registry. split; first by move=> c [<-|[]]. split; first exact: pe_product. split; first exact: pe_contract. split; first exact: pe_expr. split; first exact: pe_data.
  split; first exact: (number_reads (Num.Theory.char_num _)). split; first exact: pe_short. split; first exact: pe_generates. split; first exact: pe_single. split; first exact: pe_product_ok. split=> //. split=> //.
  exact: (C48_fock_space _ [finType of bool] pe_single).
Qed.
