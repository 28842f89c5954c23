(** C75: the generated ambit statements compute the product of the operators. *)
Set Warnings "-notation-overridden,-ambiguous-paths".
From Coq Require Import String ZArith QArith List Bool Ascii Lia.
From mathcomp Require Import all_ssreflect ssralg ssrint rat order ssrnum.
From Verif Require Import Res RegistryModel RegistryProofs RegistryProps CoreModel RationalModel RationalSpec SortSpec ScalarSem OperatorModel AlgebraModel AlgebraSpec WickSearchModel WickSearchSpec WickEvalModel WickLinearProofs TextModel TextSpec EquationModel EquationSpec EinsumSpec CanonSemSpec
  DecimalModel DecimalSpec LadderSpec WickProductSpec WickPairSpec WickTheoremSpec WickGeneralSpec WickProductProps ContractShapeProps PipeSpec PipeProofs4 PipeProofs5 PipeProofs6 PipeProofs7 PipeProofs8 PipeExample EqTextSpec EqTextProps AmbitSpec AmbitPipeSpec AmbitPipeProofs AmbitPipeProofs2 AmbitPipeProofs3 AmbitPipeProofs4.
Set Implicit Arguments.
Unset Strict Implicit.
Unset Printing Implicit Defensive.
Import GRing.Theory Order.Theory Num.Theory.
Local Open Scope ring_scope.
Delimit Scope Z_scope with Z.
Delimit Scope Q_scope with Q.

(** The many-body equations of a result of [contract] compile to ambit statements that run: for every key, on every memory in which the block
    it adds to has the shape that belongs to the key. *)
Theorem C75_runs : forall (K : fieldType) (T : text -> seq (Z * nat) -> seq (Z * nat) -> bool -> K) (dim : Z -> nat) (dimc : ascii -> nat) (tens : text -> text -> array K) (number : text -> K)
    (st : osi) (label : text) (o : wt_opts) (factor : rational) (e : opexpr) (minr maxr : Z) (r : expression),
  ambit_registry st -> dimensions dim dimc st -> plain_name label -> (forall y, In y e -> ambit_product st y.1) -> contract_expr o st factor e minr maxr (Ok r) -> program_data dim st tens T r ->
  exists prog, generates_ambit ambit_factor st label r prog /\ (exists v, ambit_run dim dimc st tens number label prog v) /\
    forall k p v, In (k, p) prog -> shape (v (key_name label k)) = [seq dim s | s <- key_upper st k ++ key_lower st k] -> exists v', ambit_executes dimc tens number p v v'.
Proof.
  exact (fun K T dim dimc tens number st label o factor e minr maxr r PR Dm Pl Hp C Hd => match PR with conj R al => let Rr := ambit_ready_expr Hp C Hd in
    let: ex_intro prog Gp := ambit_generates_exists (fun _ => 0%N) R al Dm Pl Rr in
    ex_intro _ prog (conj Gp (conj (ambit_program_total number (fun _ => 0%N) R al Dm Pl Rr Gp) (fun k p v => @ambit_program_runs K T dim dimc st tens number (fun _ => 0%N) label ambit_factor R al Dm Pl r Rr prog k p v Gp))) end).
Qed.
Print Assumptions C75_runs.
(** A statement has one reading and a list of statements one effect. *)
Theorem C75_deterministic : forall (K : comRingType) (dimc : ascii -> nat) (tens : text -> text -> array K) (number : text -> K) (p : seq text) (v v1 v2 : memory K),
  ambit_executes dimc tens number p v v1 -> ambit_executes dimc tens number p v v2 -> forall n, shape (v1 n) = shape (v2 n) /\ forall ps, elem (v1 n) ps = elem (v2 n) ps.
Proof. exact (fun K dimc tens number p v v1 v2 => @ambit_executes_det K dimc tens number p v v v1 v2 (fun n => conj (erefl _) (fun ps => erefl _))). Qed.
Print Assumptions C75_deterministic.
(** The arrays computed from zero, each element times the operators of its position, add up to the terms of the result, each with its
    coefficient as it is written in the program, ... *)
Theorem C75_program : forall (K : fieldType) (V : lmodType K) (W : seq (bool * (Z * nat)) -> V) (T : text -> seq (Z * nat) -> seq (Z * nat) -> bool -> K) (dim : Z -> nat) (dimc : ascii -> nat) (phi0 : index -> nat)
    (tens : text -> text -> array K) (number : text -> K) (st : osi) (label : text) (o : wt_opts) (factor : rational) (e : opexpr) (minr maxr : Z) (r : expression) prog v,
  ambit_registry st -> dimensions dim dimc st -> plain_name label -> (forall y, In y e -> ambit_product st y.1) -> contract_expr o st factor e minr maxr (Ok r) -> program_data dim st tens T r ->
  generates_ambit ambit_factor st label r prog -> ambit_run dim dimc st tens number label prog v ->
  \sum_(kp <- prog) array_operator W dim (key_upper st kp.1) (key_lower st kp.1) (v kp.1 (key_name label kp.1)) =
    \sum_(x <- r) number (ambit_factor x.2) *: term_value W T (fun s => seq.iota 0 (dim s)) phi0 x.1.
Proof.
  exact (fun K V W T dim dimc phi0 tens number st label o factor e minr maxr r prog v PR Dm Pl Hp C Hd Gp Rv => match PR with conj R al => esym (ambit_program_value W phi0 R al Dm Pl (ambit_ready_expr Hp C Hd) Gp Rv) end).
Qed.
Print Assumptions C75_program.
(** ... and so, if the coefficients have at most 6 decimals, to the product of the operators (normal-ordered operators with respect to a
    determinant; all ranks, or seen through a linear function that vanishes on the others). *)
Theorem C75_product : forall (K : fieldType) (A : algType K) (orb : eqType) (orbital : Z -> nat -> orb) (st : osi) (cre ann : Z -> orb -> A)
    (T : text -> seq (Z * orb) -> seq (Z * orb) -> bool -> K) (dim : Z -> nat) (dimc : ascii -> nat) (phi0 : index -> orb) (tens : text -> text -> array K) (number : text -> K) (label : text)
    (o : wt_opts) (factor : rational) (e : opexpr) (minr maxr : Z) (r : expression) prog v (V : lmodType K) (f : {linear A -> V}),
  [char K] =i pred0 -> ladder_relations st cre ann -> single_reference st -> (forall s, uniq (all_orbitals orbital dim s)) -> canonical factor -> mcanon e ->
  (forall x, In x e -> product_ok st T x.1 /\ only_ranks st cre ann f (ops_rank x.1) minr maxr) -> contract_expr o st factor e minr maxr (Ok r) ->
  ambit_registry st -> dimensions dim dimc st -> plain_name label -> (forall y, In y e -> ambit_product st y.1) -> program_data dim st tens (elements_at orbital T) r -> reads_numbers6 number -> (forall x, In x r -> short6 x.2) ->
  generates_ambit ambit_factor st label r prog -> ambit_run dim dimc st tens number label prog v ->
  f (\sum_(kp <- prog) array_operator (fun w => normal_product st cre ann (operators_at orbital w)) dim (key_upper st kp.1) (key_lower st kp.1) (v kp.1 (key_name label kp.1))) =
    ratK K factor *: f (opexpr_value st cre ann T (all_orbitals orbital dim) phi0 e).
Proof.
  exact (fun K A orb orbital st cre ann T dim dimc phi0 tens number label o factor e minr maxr r prog v V f ch HL HS U Cf Ce He C PR Dm Pl Hp Hd Hn Sr Gp Rv =>
    @ambit_pipe_product K A orb orbital st cre ann T dim dimc phi0 tens number label ch HL PR Dm Pl Hn U o factor minr maxr r prog v Cf Hd Sr Gp Rv e Ce Hp C V f HS He).
Qed.
Print Assumptions C75_product.
(** The same with general spaces and a correlated reference state. *)
Theorem C75_general_product : forall (K : fieldType) (A : algType K) (orb : eqType) (orbital : Z -> nat -> orb) (st : osi) (cre ann : Z -> orb -> A)
    (T : text -> seq (Z * orb) -> seq (Z * orb) -> bool -> K) (dim : Z -> nat) (dimc : ascii -> nat) (phi0 : index -> orb) (tens : text -> text -> array K) (number : text -> K) (label : text) (maxc : nat) (N : seq (bool * (Z * orb)) -> A)
    (o : wt_opts) (factor : rational) (e : opexpr) (minr maxr : Z) (r : expression) prog v (V : lmodType K) (f : {linear A -> V}),
  [char K] =i pred0 -> ladder_relations st cre ann -> multi_reference st -> (1 <= maxc)%N -> wt_maxcumulant o = Z.of_nat maxc -> densities st T -> generalized_normal_product st cre ann T maxc N ->
  (forall s, uniq (all_orbitals orbital dim s)) -> canonical factor -> mcanon e ->
  (forall x, In x e -> gproduct_ok st T maxc x.1 /\ gonly_ranks st N f (ops_rank x.1) minr maxr) -> contract_expr o st factor e minr maxr (Ok r) ->
  ambit_registry st -> dimensions dim dimc st -> plain_name label -> (forall y, In y e -> ambit_product st y.1) -> program_data dim st tens (elements_at orbital T) r -> reads_numbers6 number -> (forall x, In x r -> short6 x.2) ->
  generates_ambit ambit_factor st label r prog -> ambit_run dim dimc st tens number label prog v ->
  f (\sum_(kp <- prog) array_operator (fun w => N (operators_at orbital w)) dim (key_upper st kp.1) (key_lower st kp.1) (v kp.1 (key_name label kp.1))) =
    ratK K factor *: f (gopexpr_value st T N (all_orbitals orbital dim) phi0 e).
Proof.
  exact (fun K A orb orbital st cre ann T dim dimc phi0 tens number label maxc N o factor e minr maxr r prog v V f ch HL HS M1 Em HD HN U Cf Ce He C PR Dm Pl Hp Hd Hn Sr Gp Rv =>
    @ambit_pipe_gproduct K A orb orbital st cre ann T dim dimc phi0 tens number label ch HL PR Dm Pl Hn U o factor minr maxr r prog v Cf Hd Sr Gp Rv e Ce Hp C V f maxc N HS M1 Em HD HN He).
Qed.
Print Assumptions C75_general_product.
(** Rank 0: the program leaves the expectation value in the variable [label] ([computes], PipeSpec.v). *)
Theorem C75_expectation_value : forall (K : fieldType) (A : algType K) (orb : eqType) (orbital : Z -> nat -> orb) (st : osi) (cre ann : Z -> orb -> A)
    (T : text -> seq (Z * orb) -> seq (Z * orb) -> bool -> K) (dim : Z -> nat) (dimc : ascii -> nat) (phi0 : index -> orb) (tens : text -> text -> array K) (number : text -> K) (label : text)
    (o : wt_opts) (factor : rational) (ops : oprod) (r : expression) prog (f : {linear A -> K^o}),
  [char K] =i pred0 -> ladder_relations st cre ann -> single_reference st -> reference_state st cre ann f -> (forall s, uniq (all_orbitals orbital dim s)) ->
  product_ok st T ops -> canonical factor -> contract o st factor ops 0%Z 0%Z (Ok r) ->
  ambit_registry st -> dimensions dim dimc st -> plain_name label -> ambit_product st ops -> program_data dim st tens (elements_at orbital T) r -> reads_numbers6 number -> (forall x, In x r -> short6 x.2) ->
  generates_ambit ambit_factor st label r prog -> ambit_computes dimc tens number label prog (ratK K factor * f (product_value st cre ann T (all_orbitals orbital dim) phi0 ops)).
Proof.
  exact (fun K A orb orbital st cre ann T dim dimc phi0 tens number label o factor ops r prog f ch HL HS Rf U P Cf C PR Dm Pl Pp Hd Hn Sr Gp =>
    @ambit_pipe_energy K A orb orbital st cre ann T dim dimc phi0 tens number label ch HL PR Dm Pl Hn U o factor ops r prog f Cf Pp C Hd Sr Gp HS Rf P).
Qed.
Print Assumptions C75_expectation_value.
Theorem C75_general_expectation_value : forall (K : fieldType) (A : algType K) (orb : eqType) (orbital : Z -> nat -> orb) (st : osi) (cre ann : Z -> orb -> A)
    (T : text -> seq (Z * orb) -> seq (Z * orb) -> bool -> K) (dim : Z -> nat) (dimc : ascii -> nat) (phi0 : index -> orb) (tens : text -> text -> array K) (number : text -> K) (label : text) (maxc : nat) (N : seq (bool * (Z * orb)) -> A)
    (o : wt_opts) (factor : rational) (ops : oprod) (r : expression) prog (f : {linear A -> K^o}),
  [char K] =i pred0 -> ladder_relations st cre ann -> multi_reference st -> (1 <= maxc)%N -> wt_maxcumulant o = Z.of_nat maxc -> densities st T -> generalized_normal_product st cre ann T maxc N ->
  correlated_state st cre ann T maxc f -> (forall s, uniq (all_orbitals orbital dim s)) -> gproduct_ok st T maxc ops -> canonical factor -> contract o st factor ops 0%Z 0%Z (Ok r) ->
  ambit_registry st -> dimensions dim dimc st -> plain_name label -> ambit_product st ops -> program_data dim st tens (elements_at orbital T) r -> reads_numbers6 number -> (forall x, In x r -> short6 x.2) ->
  generates_ambit ambit_factor st label r prog -> ambit_computes dimc tens number label prog (ratK K factor * f (gproduct_value st T N (all_orbitals orbital dim) phi0 ops)).
Proof.
  exact (fun K A orb orbital st cre ann T dim dimc phi0 tens number label maxc N o factor ops r prog f ch HL HS M1 Em HD HN HC U P Cf C PR Dm Pl Pp Hd Hn Sr Gp =>
    @ambit_pipe_genergy K A orb orbital st cre ann T dim dimc phi0 tens number label ch HL PR Dm Pl Hn U o factor ops r prog f Cf Pp C Hd Sr Gp maxc N HS M1 Em HD HN HC P).
Qed.
Print Assumptions C75_general_expectation_value.
(** With other coefficients it is off by at most half a unit of the 6th decimal (and the error of a double) times the value of each term. *)
Theorem C75_rounding : forall (K : realFieldType) (A : algType K) (orb : eqType) (orbital : Z -> nat -> orb) (st : osi) (cre ann : Z -> orb -> A)
    (T : text -> seq (Z * orb) -> seq (Z * orb) -> bool -> K) (dim : Z -> nat) (dimc : ascii -> nat) (phi0 : index -> orb) (tens : text -> text -> array K) (number : text -> K) (label : text)
    (o : wt_opts) (factor : rational) (ops : oprod) (r : expression) (f : {linear A -> K^o}) p v0 v,
  ladder_relations st cre ann -> single_reference st -> reference_state st cre ann f -> product_ok st T ops -> (forall s, uniq (all_orbitals orbital dim s)) ->
  ambit_registry st -> dimensions dim dimc st -> plain_name label -> canonical factor -> ambit_product st ops -> contract o st factor ops 0%Z 0%Z (Ok r) -> program_data dim st tens (elements_at orbital T) r -> reads_numbers6 number ->
  generates_ambit ambit_factor st label r [:: (str "|", p)] -> shape (v0 label) = [::] -> elem (v0 label) [::] = 0 -> ambit_executes dimc tens number p v0 v ->
  `|elem (v label) [::] - ratK K factor * f (product_value st cre ann T (all_orbitals orbital dim) phi0 ops)| <=
    \sum_(x <- r) (qK K (1 # 2000000) + `|ratK K x.2| * qK K (1 # 2 ^ 51)) * `|term_value (@no_operators K orb) T (all_orbitals orbital dim) phi0 x.1|.
Proof. exact ambit_pipe_error. Qed.
Print Assumptions C75_rounding.
(** Numbers can be read as required. *)
Theorem C75_reader : forall K : fieldType, [char K] =i pred0 -> exists number : text -> K, reads_numbers6 number.
Proof. exact (fun K ch => ex_intro _ _ (number_reads6 ch)). Qed.
Print Assumptions C75_reader.
(** The ambit statements and the numpy program (C73) of an expression compute the same arrays, key by key, if the coefficients have at most 6
    decimals. *)
Theorem C75_agreement : forall (K : fieldType) (T : text -> seq (Z * nat) -> seq (Z * nat) -> bool -> K) (dim : Z -> nat) (dimc : ascii -> nat) (tens : text -> text -> array K) (number number6 : text -> K)
    (st : osi) (label : text) (o : wt_opts) (factor : rational) (e : opexpr) (minr maxr : Z) (r : expression) prog prog',
  [char K] =i pred0 -> program_registry st -> dimensions dim dimc st -> plain label -> plain_name label -> reads_numbers number -> reads_numbers6 number6 -> canonical factor -> mcanon e ->
  (forall y, In y e -> program_product st y.1 /\ ambit_product st y.1) -> contract_expr o st factor e minr maxr (Ok r) -> program_data dim st tens T r -> (forall x, In x r -> short6 x.2 /\ short x.2) ->
  generates einsum_factor st label r prog -> generates_ambit ambit_factor st label r prog' ->
  List.Forall2 (fun kp kp' => kp.1 = kp'.1 /\ forall v v' w w', executes tens number kp.2 v v' -> ambit_executes dimc tens number6 kp'.2 w w' ->
    (forall ps, ps \in positions [seq dim s | s <- key_upper st kp.1 ++ key_lower st kp.1] -> elem (v (key_name label kp.1)) ps = elem (w (key_name label kp.1)) ps) ->
    forall ps, ps \in positions [seq dim s | s <- key_upper st kp.1 ++ key_lower st kp.1] -> elem (v' (key_name label kp.1)) ps = elem (w' (key_name label kp.1)) ps) prog prog'.
Proof.
  exact (fun K T dim dimc tens number number6 st label o factor e minr maxr r prog prog' ch PR Dm Pl Pn Hn Hm Cf Ce Hp C Hd Sr Gp Gp' =>
    programs_agree ch PR Dm Pl Pn Hn Hm (ready_expr (fun y Hy => proj1 (Hp y Hy)) C Hd) (ambit_ready_expr (fun y Hy => proj2 (Hp y Hy)) C Hd)
      (ambit_canon_r Cf Ce (fun y Hy => proj2 (Hp y Hy)) C) (fun x Hx => proj1 (Sr x Hx)) (fun x Hx => proj2 (Sr x Hx)) Gp Gp').
Qed.
Print Assumptions C75_agreement.

(** ** A case (the objects of C73) *)
Example C75_nonvacuous : ambit_registry ex_st2 /\ dimensions pe_dim (fun _ => 2%N) ex_st2 /\ plain_name pe_label /\ ambit_product ex_st2 cs_ops /\
  contract (mkWT 100 false) ex_st2 (rat_of_Z 1) cs_ops 0%Z 0%Z (Ok pe_r) /\
  contract_expr (mkWT 100 false) ex_st2 (rat_of_Z 1) [:: (cs_ops, rat_of_Z 1)] 0%Z 0%Z (Ok pe_r) /\ program_data pe_dim ex_st2 pe_tens (elements_at pe_orbital pe_T) pe_r /\
  reads_numbers6 (@number_of6 [fieldType of rat]) /\ (forall x, In x pe_r -> short6 x.2 /\ short x.2) /\
  generates_ambit ambit_factor ex_st2 pe_label pe_r [:: (str "|", [:: str "R += 1.000000 * F[v0,o0] * T[o0,v0];"])] /\ single_reference ex_st2 /\ product_ok ex_st2 pe_T cs_ops /\
  (forall s, uniq (all_orbitals pe_orbital pe_dim s)) /\
  exists (A : algType [fieldType of rat]) (cre ann : Z -> bool -> A) (f : {linear A -> rat^o}), ladder_relations ex_st2 cre ann /\ reference_state ex_st2 cre ann f.
Proof.
  have [R [_ al]] := pe_registry. have [Ok1 [Ne _]] := pe_product.
  do 2 (split; first by []). split; first by split=> //; repeat constructor. split; first by split=> //; split=> // o [<-|[<-|[]]]; split=> //; repeat constructor.
  split; first exact: pe_contract. split; first exact: pe_expr. split; first exact: pe_data.
  split; first exact: (number_reads6 (Num.Theory.char_num _)). split; first by move=> x Hx; split; [case: Hx => [<-|[]]; exists 1000000%Z; split; [by vm_compute|by []]|exact: pe_short].
  split. { exists [:: (str "|", [:: equation_of pe_label (cs_t, mkR 1 1)])]. split; first by vm_compute. constructor=> //. split=> //. by constructor. }
  split; first exact: pe_single. split; first exact: pe_product_ok. split=> //.
  exact: (C48_fock_space _ [finType of bool] pe_single).
Qed.
