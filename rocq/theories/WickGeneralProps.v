(** C61: Wick's theorem for general spaces (multireference states). *)
Set Warnings "-notation-overridden,-ambiguous-paths".
From Coq Require Import ZArith List Lia.
From mathcomp Require Import all_ssreflect ssralg ssrint rat ssrnum matrix.
From Verif Require Import Res RationalModel RationalSpec RegistryModel CoreModel AlgebraModel AlgebraSpec OperatorModel WickSearchModel WickSearchSpec SortSpec ScalarSem LadderSpec CanonSemSpec
  WickProductSpec WickEvalModel WickPairSpec WickTheoremSpec WickGeneralSpec WickStateSpec WickGenProofs WickGenProofs13 WickStateProofs4 WickStateProofs5 WickFockProofs WickFockProofs2 WickGeneralExample WickGeneralExample2.
Set Implicit Arguments.
Unset Strict Implicit.
Unset Printing Implicit Defensive.
Import GRing.Theory.
Local Open Scope ring_scope.
Local Notation two := (Zpos (xO xH)).
Local Notation four := (Zpos (xO (xO xH))).
Local Notation one := (Zpos xH).

(** For every field of characteristic 0, every representation of the creation and annihilation operators, all antisymmetric
    tensors and density cumulants and all finite sets of orbitals: if all ranks are asked for, the value of the result (each term
    summed over its indices, with the generalized normal-ordered product of its operators) is [factor] times the product of the
    operators. *)
Theorem C61_product : forall (K : fieldType) (A : algType K) (orb : eqType) (st : osi) (cre ann : Z -> orb -> A)
    (T : text -> seq (Z * orb) -> seq (Z * orb) -> bool -> K) (maxc : nat) (N : seq (bool * (Z * orb)) -> A)
    (orbs : Z -> seq orb) (phi0 : index -> orb) (o : wt_opts) (factor : rational) (ops : oprod) (minr maxr : Z) (r : expression),
  [char K] =i pred0 -> ladder_relations st cre ann -> multi_reference st -> (1 <= maxc)%N -> wt_maxcumulant o = Z.of_nat maxc ->
  densities st T -> generalized_normal_product st cre ann T maxc N -> (forall s, uniq (orbs s)) ->
  gproduct_ok st T maxc ops -> canonical factor -> Z.le minr Z0 -> Z.le (ops_rank ops) maxr ->
  contract o st factor ops minr maxr (Ok r) ->
  expr_value N T orbs phi0 r = ratK K factor *: gproduct_value st T N orbs phi0 ops.
Proof.
  exact (fun K A orb st cre ann T maxc N orbs phi0 o factor ops minr maxr r ch HL HS M1 Em HD HN U P Cf H1 H2 C =>
    proj2 (gcontract_product ch HL HS M1 HD HN U phi0 Em (f := [linear of idfun]) P (@gonly_full K A orb st maxc N _ _ _ H1 H2) Cf C)).
Qed.
Print Assumptions C61_product.
(** The same for a range of ranks, for every linear function that vanishes on the normal-ordered products of other lengths. *)
Theorem C61_ranks : forall (K : fieldType) (A : algType K) (orb : eqType) (st : osi) (cre ann : Z -> orb -> A)
    (T : text -> seq (Z * orb) -> seq (Z * orb) -> bool -> K) (maxc : nat) (N : seq (bool * (Z * orb)) -> A)
    (orbs : Z -> seq orb) (phi0 : index -> orb) (o : wt_opts) (factor : rational) (ops : oprod) (minr maxr : Z) (r : expression)
    (V : lmodType K) (f : {linear A -> V}),
  [char K] =i pred0 -> ladder_relations st cre ann -> multi_reference st -> (1 <= maxc)%N -> wt_maxcumulant o = Z.of_nat maxc ->
  densities st T -> generalized_normal_product st cre ann T maxc N -> (forall s, uniq (orbs s)) ->
  gproduct_ok st T maxc ops -> canonical factor -> gonly_ranks st N f (ops_rank ops) minr maxr ->
  contract o st factor ops minr maxr (Ok r) ->
  f (expr_value N T orbs phi0 r) = ratK K factor *: f (gproduct_value st T N orbs phi0 ops).
Proof.
  exact (fun K A orb st cre ann T maxc N orbs phi0 o factor ops minr maxr r V f ch HL HS M1 Em HD HN U P Cf Hf C =>
    proj2 (gcontract_product ch HL HS M1 HD HN U phi0 Em P Hf Cf C)).
Qed.
Print Assumptions C61_ranks.
(** [contract(factor, ops, 0, 0)] gives the expectation value of the product in every state with these density cumulants. *)
Theorem C61_expectation_value : forall (K : fieldType) (A : algType K) (orb : eqType) (st : osi) (cre ann : Z -> orb -> A)
    (T : text -> seq (Z * orb) -> seq (Z * orb) -> bool -> K) (maxc : nat) (N : seq (bool * (Z * orb)) -> A)
    (orbs : Z -> seq orb) (phi0 : index -> orb) (o : wt_opts) (factor : rational) (ops : oprod) (r : expression) (f : {linear A -> K^o}),
  [char K] =i pred0 -> ladder_relations st cre ann -> multi_reference st -> (1 <= maxc)%N -> wt_maxcumulant o = Z.of_nat maxc ->
  densities st T -> generalized_normal_product st cre ann T maxc N -> (forall s, uniq (orbs s)) -> correlated_state st cre ann T maxc f ->
  gproduct_ok st T maxc ops -> canonical factor ->
  contract o st factor ops Z0 Z0 (Ok r) ->
  expr_value (@no_operators K orb) T orbs phi0 r = ratK K factor * f (gproduct_value st T N orbs phi0 ops).
Proof.
  exact (fun K A orb st cre ann T maxc N orbs phi0 o factor ops r f ch HL HS M1 Em HD HN U HC P Cf C =>
    gexpectation ch HL HS M1 HD HN U phi0 Em HC P Cf C).
Qed.
Print Assumptions C61_expectation_value.
(** Operator expressions. *)
Theorem C61_expression : forall (K : fieldType) (A : algType K) (orb : eqType) (st : osi) (cre ann : Z -> orb -> A)
    (T : text -> seq (Z * orb) -> seq (Z * orb) -> bool -> K) (maxc : nat) (N : seq (bool * (Z * orb)) -> A)
    (orbs : Z -> seq orb) (phi0 : index -> orb) (o : wt_opts) (factor : rational) (e : opexpr) (minr maxr : Z) (r : expression)
    (V : lmodType K) (f : {linear A -> V}),
  [char K] =i pred0 -> ladder_relations st cre ann -> multi_reference st -> (1 <= maxc)%N -> wt_maxcumulant o = Z.of_nat maxc ->
  densities st T -> generalized_normal_product st cre ann T maxc N -> (forall s, uniq (orbs s)) -> canonical factor -> mcanon e ->
  (forall x, In x e -> gproduct_ok st T maxc x.1 /\ gonly_ranks st N f (ops_rank x.1) minr maxr) ->
  contract_expr o st factor e minr maxr (Ok r) ->
  f (expr_value N T orbs phi0 r) = ratK K factor *: f (gopexpr_value st T N orbs phi0 e).
Proof.
  exact (fun K A orb st cre ann T maxc N orbs phi0 o factor e minr maxr r V f ch HL HS M1 Em HD HN U Cf Ce He C =>
    gexpr_contract ch HL HS M1 HD HN U phi0 Em Cf Ce He C).
Qed.
Print Assumptions C61_expression.
(** The generalized normal-ordered product exists and is unique. *)
Theorem C61_normal_product : forall (K : fieldType) (A : algType K) (orb : eqType) (st : osi) (cre ann : Z -> orb -> A)
    (T : text -> seq (Z * orb) -> seq (Z * orb) -> bool -> K) (maxc : nat),
  exists N, generalized_normal_product st cre ann T maxc N /\
    forall N', generalized_normal_product st cre ann T maxc N' -> forall w, registered_word st w -> N' w = N w.
Proof.
  exact (fun K A orb st cre ann T maxc => ex_intro _ _ (conj (@normal_exists _ _ _ st cre ann T maxc)
    (fun N' H => normal_unique H (@normal_exists _ _ _ st cre ann T maxc)))).
Qed.
Print Assumptions C61_normal_product.
(** Without general spaces it is the normal-ordered product of C48, and the determinant has these cumulants. *)
Theorem C61_determinant : forall (K : fieldType) (A : algType K) (orb : eqType) (st : osi) (cre ann : Z -> orb -> A)
    (T : text -> seq (Z * orb) -> seq (Z * orb) -> bool -> K) (maxc : nat) (f : {linear A -> K^o}),
  ladder_relations st cre ann -> single_reference st -> reference_state st cre ann f ->
  generalized_normal_product st cre ann T maxc (normal_product st cre ann) /\ correlated_state st cre ann T maxc f.
Proof.
  exact (fun K A orb st cre ann T maxc f HL HS Rf => conj (determinant_normal HL HS T maxc) (determinant_state HL HS T maxc Rf)).
Qed.
Print Assumptions C61_determinant.
(** Every state with a determinant in the occupied and unoccupied spaces, conservation of the number of particles in each
    general space and independent spaces has density cumulants, if the cumulants go up to the number of orbitals; ... *)
Theorem C61_states : forall (K : fieldType) (A : algType K) (orb : finType) (st : osi) (cre ann : Z -> orb -> A) (f : {linear A -> K^o})
    (maxc : nat) (T0 : text -> seq (Z * orb) -> seq (Z * orb) -> bool -> K),
  [char K] =i pred0 -> ladder_relations st cre ann -> multi_reference st -> active_state st cre ann f -> (#|orb| <= maxc)%N ->
  independent_spaces st cre ann f ->
  exists T, (forall label, ~ density_label label -> T label = T0 label) /\ densities st T /\ correlated_state st cre ann T maxc f.
Proof. exact (fun K A orb st cre ann f maxc T0 ch HL HS Hf Hm => states_final ch HL HS Hf T0 Hm). Qed.
Print Assumptions C61_states.
(** ... with one general space the spaces are always independent; ... *)
Theorem C61_one_active_space : forall (K : fieldType) (A : algType K) (orb : finType) (st : osi) (cre ann : Z -> orb -> A) (f : {linear A -> K^o}),
  ladder_relations st cre ann -> multi_reference st -> active_state st cre ann f -> one_active_space st -> independent_spaces st cre ann f.
Proof. exact (fun K A orb st cre ann f HL HS => @one_general K A orb st cre ann HL HS f). Qed.
Print Assumptions C61_one_active_space.
(** ... so [contract(factor, ops, 0, 0)] computes the expectation value in every wave function with one active space, for tensors
    gamma1, eta1, lambda2, ... that depend on the state only. *)
Theorem C61_active_space : forall (K : fieldType) (A : algType K) (orb : finType) (st : osi) (cre ann : Z -> orb -> A) (f : {linear A -> K^o}),
  [char K] =i pred0 -> ladder_relations st cre ann -> multi_reference st -> active_state st cre ann f ->
  forall (maxc : nat) (T0 : text -> seq (Z * orb) -> seq (Z * orb) -> bool -> K), (#|orb| <= maxc)%N -> one_active_space st -> (1 <= maxc)%N ->
  (forall label, antisymmetric_tensor T0 label) ->
  exists T N, (forall label, ~ density_label label -> T label = T0 label) /\ generalized_normal_product st cre ann T maxc N /\
    forall orbs phi0 o factor ops r, (forall s, uniq (orbs s)) -> wt_maxcumulant o = Z.of_nat maxc ->
      ops_ok st ops -> few_legs st ops -> (forall op, In op ops -> ~ density_label (op_label op)) -> canonical factor ->
      contract o st factor ops Z0 Z0 (Ok r) ->
      expr_value (no_operators K (orb := orb)) T orbs phi0 r = ratK K factor * f (gproduct_value st T N orbs phi0 ops).
Proof. exact active_final. Qed.
Print Assumptions C61_active_space.
(** No contraction can be carried out three times if no two operators have three creation and three annihilation operators in one space. *)
Theorem C61_few_legs : forall st ops maxc, few_legs st ops -> no_triple st maxc ops.
Proof. exact (fun st ops maxc => few_legs_no_triple st ops (Z.of_nat maxc)). Qed.
Print Assumptions C61_few_legs.
(** The Fock space of finitely many orbitals satisfies the relations, and all its density matrices of this kind give such states. *)
Theorem C61_fock_space : forall (K : fieldType) (st : osi) (orb : finType), multi_reference st ->
  forall (d : nat) (dE : d.+1 = #|{: {ffun [finType of 'I_(Z.to_nat (num_spaces st)).+1 * orb] -> bool}}|),
  ladder_relations st (fock_cre K dE) (fock_ann K dE) /\
  forall D, density_matrix (K := K) D -> active_state st (fock_cre K dE) (fock_ann K dE) (expect_linear dE D).
Proof. exact (fun K st orb HS d dE => conj (fock_relations_multi K HS dE) (@expect_active K st orb HS d dE)). Qed.
Print Assumptions C61_fock_space.

(** Non-vacuity: occupied, general and unoccupied orbitals, two of each; the operators F and G with one creation and one annihilation
    operator in the general space; a correlated state. *)
Example C61_nonvacuous : [char rat] =i pred0 /\ multi_reference wg_st /\ one_active_space wg_st /\ ops_ok wg_st wg_ops /\ few_legs wg_st wg_ops /\
  (forall op, In op wg_ops -> ~ density_label (op_label op)) /\ (#|[finType of bool]| <= 2)%N /\
  (exists els cvs, search 50 (mkWT two true) wg_st wg_ops Z0 four = Ok (els, cvs) /\ length cvs = 5%N) /\
  (exists r, contract (mkWT two true) wg_st (rat_of_Z one) wg_ops Z0 four (Ok r)) /\
  (exists r, contract (mkWT two true) wg_st (rat_of_Z one) wg_ops Z0 Z0 (Ok r)) /\
  exists (d : nat) (dE : d.+1 = #|{: {ffun [finType of 'I_(Z.to_nat (num_spaces wg_st)).+1 * bool] -> bool}}|),
    ladder_relations wg_st (fock_cre [fieldType of rat] dE) (fock_ann [fieldType of rat] dE) /\
    active_state wg_st (fock_cre [fieldType of rat] dE) (fock_ann [fieldType of rat] dE) (expect_linear dE wg_D) /\
    expect dE wg_D (occ_op dE true) = 2%:R^-1 /\ expect dE wg_D (occ_op dE false) = 2%:R^-1 /\ expect dE wg_D (occ_op dE true * occ_op dE false) = 2%:R^-1.
Proof.
  split; first exact: Num.Theory.char_num. split; first exact: wg_multi. split; first exact: wg_one. split; first exact: wg_ok. split; first exact: wg_few.
  split. { by move=> op [<-|[<-|[]]] [//|[//|[t //]]]. }
  split; first by rewrite card_bool. split; first exact: wg_search. split; first exact: wg_contract. split; first exact: wg_contract.
  have [d dE] := fock_dim [finType of 'I_(Z.to_nat (num_spaces wg_st)).+1 * bool]. exists d, dE.
  have [H1 H2] := C61_fock_space [fieldType of rat] wg_multi dE. split=> //. split; first exact: (H2 _ wg_density). exact: wg_correlated.
Qed.
