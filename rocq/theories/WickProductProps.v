(** C48: Wick's theorem.  The sum of the terms returned by [contract] is the product of the operators. *)
Set Warnings "-notation-overridden,-ambiguous-paths".
From Coq Require Import ZArith List Lia.
From mathcomp Require Import all_ssreflect ssralg ssrint rat ssrnum matrix.
From Verif Require Import Res RationalModel RationalSpec RegistryModel CoreModel AlgebraModel AlgebraSpec OperatorModel WickSearchModel WickSearchSpec SortSpec ScalarSem LadderSpec CanonSemSpec
  WickProductSpec WickEvalModel WickPairSpec WickTheoremSpec WickProductProofs15 WickFockProofs WickProductExample.
Set Implicit Arguments.
Unset Strict Implicit.
Unset Printing Implicit Defensive.
Import GRing.Theory.
Local Open Scope ring_scope.
Local Notation eight := (Zpos (xO (xO (xO xH)))).
Local Notation one := (Zpos xH).

(** For every field, every representation of the creation and annihilation operators, all antisymmetric tensors and all finite
    sets of orbitals: if all ranks are asked for, the value of the result (each term summed over its indices, with the
    normal-ordered product of its operators) is [factor] times the product of the operators. *)
Theorem C48_product : forall (K : fieldType) (A : algType K) (orb : eqType) (st : osi) (cre ann : Z -> orb -> A)
    (T : text -> seq (Z * orb) -> seq (Z * orb) -> bool -> K) (orbs : Z -> seq orb) (phi0 : index -> orb) (o : wt_opts) (factor : rational) (ops : oprod) (minr maxr : Z) (r : expression),
  [char K] =i pred0 -> ladder_relations st cre ann -> single_reference st -> (forall s, uniq (orbs s)) ->
  product_ok st T ops -> canonical factor -> Z.le minr Z0 -> Z.le (ops_rank ops) maxr ->
  contract o st factor ops minr maxr (Ok r) ->
  expr_value (normal_product st cre ann) T orbs phi0 r = ratK K factor *: product_value st cre ann T orbs phi0 ops.
Proof.
  exact (fun K A orb st cre ann T orbs phi0 o factor ops minr maxr r ch HL HS U P Cf H1 H2 =>
    @contract_product K A orb st cre ann ch HL HS T orbs U phi0 ops A [linear of idfun] minr maxr o factor r P (@only_full K A orb st cre ann _ _ _ H1 H2) Cf).
Qed.
Print Assumptions C48_product.
(** The same for a range of ranks, for every linear function that vanishes on the normal-ordered products of other lengths. *)
Theorem C48_ranks : forall (K : fieldType) (A : algType K) (orb : eqType) (st : osi) (cre ann : Z -> orb -> A)
    (T : text -> seq (Z * orb) -> seq (Z * orb) -> bool -> K) (orbs : Z -> seq orb) (phi0 : index -> orb) (o : wt_opts) (factor : rational) (ops : oprod) (minr maxr : Z) (r : expression)
    (V : lmodType K) (f : {linear A -> V}),
  [char K] =i pred0 -> ladder_relations st cre ann -> single_reference st -> (forall s, uniq (orbs s)) ->
  product_ok st T ops -> canonical factor -> only_ranks st cre ann f (ops_rank ops) minr maxr ->
  contract o st factor ops minr maxr (Ok r) ->
  f (expr_value (normal_product st cre ann) T orbs phi0 r) = ratK K factor *: f (product_value st cre ann T orbs phi0 ops).
Proof.
  exact (fun K A orb st cre ann T orbs phi0 o factor ops minr maxr r V f ch HL HS U P Cf Hf =>
    @contract_product K A orb st cre ann ch HL HS T orbs U phi0 ops V f minr maxr o factor r P Hf Cf).
Qed.
Print Assumptions C48_ranks.
(** [contract(factor, ops, 0, 0)] gives the expectation value of the product in the reference state. *)
Theorem C48_expectation_value : forall (K : fieldType) (A : algType K) (orb : eqType) (st : osi) (cre ann : Z -> orb -> A)
    (T : text -> seq (Z * orb) -> seq (Z * orb) -> bool -> K) (orbs : Z -> seq orb) (phi0 : index -> orb) (o : wt_opts) (factor : rational) (ops : oprod) (r : expression)
    (f : {linear A -> K^o}),
  [char K] =i pred0 -> ladder_relations st cre ann -> single_reference st -> (forall s, uniq (orbs s)) ->
  product_ok st T ops -> canonical factor -> reference_state st cre ann f ->
  contract o st factor ops Z0 Z0 (Ok r) ->
  expr_value (@no_operators K orb) T orbs phi0 r = ratK K factor * f (product_value st cre ann T orbs phi0 ops).
Proof.
  exact (fun K A orb st cre ann T orbs phi0 o factor ops r f ch HL HS U P Cf Rf =>
    @expectation K A orb st cre ann ch HL HS T orbs U phi0 f Rf o factor ops r P Cf).
Qed.
Print Assumptions C48_expectation_value.
(** Operator expressions. *)
Theorem C48_expression : forall (K : fieldType) (A : algType K) (orb : eqType) (st : osi) (cre ann : Z -> orb -> A)
    (T : text -> seq (Z * orb) -> seq (Z * orb) -> bool -> K) (orbs : Z -> seq orb) (phi0 : index -> orb) (o : wt_opts) (factor : rational) (e : opexpr) (minr maxr : Z) (r : expression)
    (V : lmodType K) (f : {linear A -> V}),
  [char K] =i pred0 -> ladder_relations st cre ann -> single_reference st -> (forall s, uniq (orbs s)) -> canonical factor -> mcanon e ->
  (forall x, In x e -> product_ok st T x.1 /\ only_ranks st cre ann f (ops_rank x.1) minr maxr) ->
  contract_expr o st factor e minr maxr (Ok r) ->
  f (expr_value (normal_product st cre ann) T orbs phi0 r) = ratK K factor *: f (opexpr_value st cre ann T orbs phi0 e).
Proof.
  exact (fun K A orb st cre ann T orbs phi0 o factor e minr maxr r V f ch HL HS U =>
    @expr_contract K A orb st cre ann ch HL HS T orbs U phi0 V f minr maxr o factor e r).
Qed.
Print Assumptions C48_expression.

(** The hypotheses can be met for every registry of this kind, every field and every finite set of orbitals (the Fock space). *)
Theorem C48_fock_space : forall (K : fieldType) (st : osi) (orb : finType), single_reference st ->
  exists (A : algType K) (cre ann : Z -> orb -> A) (f : {linear A -> K^o}), ladder_relations st cre ann /\ reference_state st cre ann f.
Proof.
  exact (fun K st orb HS => let: ex_intro n dE := fock_dim [finType of 'I_(Z.to_nat (num_spaces st)).+1 * orb] in
    ex_intro _ _ (ex_intro _ _ (ex_intro _ _ (ex_intro _ _ (conj (fock_relations K HS dE) (fock_reference K HS dE)))))).
Qed.
Print Assumptions C48_fock_space.

(** Non-vacuity: V T with an antisymmetric tensor on two orbitals per space. *)
Definition anti (w : seq (Z * bool)) : rat := if w is [:: a; b] then (a.2 : nat)%:R - (b.2 : nat)%:R else 0.
Definition wp_T (_ : text) (lo up : seq (Z * bool)) (_ : bool) : rat := anti lo * anti up.
Lemma anti_alternating : alternating -%R anti.
Proof.
  have Z0 w : length w <> 2%N -> anti w = 0 by case: w => [|a [|b [|c w]]].
  move=> l1 x y l2. case: (Nat.eq_dec (length (List.app l1 (x :: y :: l2))) 2%N) => [E|N].
  - move: E. rewrite List.app_length /=. case: l1 => [|a l1] /=; case: l2 => [|c l2] /= E; try lia. by rewrite opprB.
  - rewrite (Z0 _ N) Z0 ?oppr0 //. move: N. by rewrite !List.app_length.
Qed.
Example C48_nonvacuous : [char rat] =i pred0 /\ single_reference wp_st /\ product_ok wp_st wp_T wp_ops /\ uniq [:: true; false] /\
  wp_T [::] [:: (Z0, true); (Z0, false)] [:: (Zpos xH, true); (Zpos xH, false)] false = 1 /\
  (exists els cvs, search 50 (mkWT eight true) wp_st wp_ops Z0 eight = Ok (els, cvs) /\ length cvs = 9%N) /\
  (exists r, contract (mkWT eight true) wp_st (rat_of_Z one) wp_ops Z0 eight (Ok r)) /\
  (exists r, contract (mkWT eight true) wp_st (rat_of_Z one) wp_ops Z0 Z0 (Ok r)) /\
  exists (A : algType [fieldType of rat]) (cre ann : Z -> bool -> A) (f : {linear A -> rat^o}), ladder_relations wp_st cre ann /\ reference_state wp_st cre ann f.
Proof.
  have HS : single_reference wp_st by move=> s /wp_space [->|->]; split=> //; [left|right].
  split; first exact: Num.Theory.char_num. split=> //. split.
  { split; first exact: wp_ok. split; first exact: wp_double. move=> o _. split=> [lo|up] l1 x y l2; rewrite /wp_T anti_alternating ?mulrN ?mulNr //. }
  split=> //. split=> //. split; first exact: wp_search. split; first exact: wp_contract. split; first exact: wp_contract.
  exact: (C48_fock_space _ [finType of bool] HS).
Qed.
