(** C70: what [contract] returns if a contraction can be repeated three times or more. *)
Set Warnings "-notation-overridden,-ambiguous-paths".
From Coq Require Import Ascii ZArith List Lia.
From mathcomp Require Import all_ssreflect ssralg ssrint rat ssrnum matrix.
From Verif Require Import Res RationalModel RationalSpec RationalProofs RegistryModel CoreModel AlgebraModel AlgebraSpec OperatorModel WickSearchModel WickSearchSpec SortSpec SortProofs ScalarSem LadderSpec CanonModel CanonSpec CanonSemSpec
  WickProductSpec WickEvalModel WickPairSpec WickTheoremSpec WickSearchProps WickCombProps WickMultSpec WickMultProofs2 WickMultProofs3 WickMultExample WickProductProps WickGeneralSpec WickFockProofs WickFockProofs2 WickGeneralProps WickMultProofs4 WickMultExample2.
Set Implicit Arguments.
Unset Strict Implicit.
Unset Printing Implicit Defensive.
Import GRing.Theory.
Local Open Scope ring_scope.
Local Notation one := (Zpos xH).
Local Notation two := (Zpos (xO xH)).
Local Notation three := (Zpos (xI xH)).
Local Notation hundred := (Zpos (xO (xO (xI (xO (xO (xI xH))))))).

(** As C48, without the bound on the numbers of legs: if all selections of contractions in the rank window have the same
    repetition weight [w] (the product of (m - 1)!, WickMultSpec.v), the result is [w] times the product. *)
Theorem C70_repeated : forall (K : fieldType) (A : algType K) (orb : eqType) (st : osi) (cre ann : Z -> orb -> A)
    (T : text -> seq (Z * orb) -> seq (Z * orb) -> bool -> K) (orbs : Z -> seq orb) (phi0 : index -> orb) (o : wt_opts) (factor : rational) (ops : oprod) (minr maxr w : Z) (r : expression)
    (V : lmodType K) (f : {linear A -> V}),
  [char K] =i pred0 -> ladder_relations st cre ann -> single_reference st -> (forall s, uniq (orbs s)) ->
  ops_ok st ops -> (forall x, In x ops -> antisymmetric_tensor T (op_label x)) -> canonical factor ->
  only_ranks st cre ann f (ops_rank ops) minr maxr -> uniform_weight st (wt_maxcumulant o) ops minr maxr w ->
  contract o st factor ops minr maxr (Ok r) ->
  f (expr_value (normal_product st cre ann) T orbs phi0 r) = (zr K w * ratK K factor) *: f (product_value st cre ann T orbs phi0 ops).
Proof.
  exact (fun K A orb st cre ann T orbs phi0 o factor ops minr maxr w r V f ch HL HS U Hok HT Cf Hf Hw =>
    @contract_product_gen K A orb st cre ann ch HL HS T orbs U phi0 ops Hok HT V f minr maxr o factor r w Hf Hw Cf).
Qed.
Print Assumptions C70_repeated.
(** Expectation values in the reference state. *)
Theorem C70_expectation_value : forall (K : fieldType) (A : algType K) (orb : eqType) (st : osi) (cre ann : Z -> orb -> A)
    (T : text -> seq (Z * orb) -> seq (Z * orb) -> bool -> K) (orbs : Z -> seq orb) (phi0 : index -> orb) (o : wt_opts) (factor : rational) (ops : oprod) (w : Z) (r : expression)
    (f : {linear A -> K^o}),
  [char K] =i pred0 -> ladder_relations st cre ann -> single_reference st -> (forall s, uniq (orbs s)) ->
  ops_ok st ops -> (forall x, In x ops -> antisymmetric_tensor T (op_label x)) -> canonical factor -> reference_state st cre ann f ->
  uniform_weight st (wt_maxcumulant o) ops Z0 Z0 w -> contract o st factor ops Z0 Z0 (Ok r) ->
  expr_value (@no_operators K orb) T orbs phi0 r = zr K w * ratK K factor * f (product_value st cre ann T orbs phi0 ops).
Proof.
  exact (fun K A orb st cre ann T orbs phi0 o factor ops w r f ch HL HS U Hok HT Cf Rf Hw =>
    @expectation_gen K A orb st cre ann ch HL HS T orbs U phi0 ops Hok HT f Rf o factor r w Hw Cf).
Qed.
Print Assumptions C70_expectation_value.
(** With general spaces: as C61, without the hypothesis that no contraction can be carried out three times. *)
Theorem C70_general : forall (K : fieldType) (A : algType K) (orb : eqType) (st : osi) (cre ann : Z -> orb -> A)
    (T : text -> seq (Z * orb) -> seq (Z * orb) -> bool -> K) (maxc : nat) (N : seq (bool * (Z * orb)) -> A)
    (orbs : Z -> seq orb) (phi0 : index -> orb) (o : wt_opts) (factor : rational) (ops : oprod) (minr maxr w : Z) (r : expression)
    (V : lmodType K) (f : {linear A -> V}),
  [char K] =i pred0 -> ladder_relations st cre ann -> multi_reference st -> (1 <= maxc)%N -> wt_maxcumulant o = Z.of_nat maxc ->
  densities st T -> generalized_normal_product st cre ann T maxc N -> (forall s, uniq (orbs s)) ->
  ops_ok st ops -> (forall x, In x ops -> antisymmetric_tensor T (op_label x)) -> canonical factor ->
  gonly_ranks st N f (ops_rank ops) minr maxr -> uniform_weight st (wt_maxcumulant o) ops minr maxr w ->
  contract o st factor ops minr maxr (Ok r) ->
  f (expr_value N T orbs phi0 r) = (zr K w * ratK K factor) *: f (gproduct_value st T N orbs phi0 ops).
Proof.
  exact (fun K A orb st cre ann T maxc N orbs phi0 o factor ops minr maxr w r V f ch HL HS M1 Em HD HN U Hok HT Cf Hf Hw C =>
    proj2 (gcontract_product_gen ch HL HS M1 HD HN U phi0 Em Hok HT Hf Hw Cf C)).
Qed.
Print Assumptions C70_general.
(** Expectation values in the states with these density cumulants. *)
Theorem C70_general_expectation_value : forall (K : fieldType) (A : algType K) (orb : eqType) (st : osi) (cre ann : Z -> orb -> A)
    (T : text -> seq (Z * orb) -> seq (Z * orb) -> bool -> K) (maxc : nat) (N : seq (bool * (Z * orb)) -> A)
    (orbs : Z -> seq orb) (phi0 : index -> orb) (o : wt_opts) (factor : rational) (ops : oprod) (w : Z) (r : expression) (f : {linear A -> K^o}),
  [char K] =i pred0 -> ladder_relations st cre ann -> multi_reference st -> (1 <= maxc)%N -> wt_maxcumulant o = Z.of_nat maxc ->
  densities st T -> generalized_normal_product st cre ann T maxc N -> (forall s, uniq (orbs s)) -> correlated_state st cre ann T maxc f ->
  ops_ok st ops -> (forall x, In x ops -> antisymmetric_tensor T (op_label x)) -> canonical factor ->
  uniform_weight st (wt_maxcumulant o) ops Z0 Z0 w -> contract o st factor ops Z0 Z0 (Ok r) ->
  expr_value (@no_operators K orb) T orbs phi0 r = zr K w * ratK K factor * f (gproduct_value st T N orbs phi0 ops).
Proof.
  exact (fun K A orb st cre ann T maxc N orbs phi0 o factor ops w r f ch HL HS M1 Em HD HN U HC Hok HT Cf Hw C =>
    gexpectation_gen ch HL HS M1 HD HN U phi0 Em Hok HT HC Hw Cf C).
Qed.
Print Assumptions C70_general_expectation_value.
(** If no contraction can be carried out three times, all weights are 1 (C61). *)
Theorem C70_no_triple : forall st maxc ops minr maxr, ops_ok st ops -> no_triple st maxc ops -> uniform_weight st (Z.of_nat maxc) ops minr maxr one.
Proof. exact no_triple_uniform. Qed.
Print Assumptions C70_no_triple.

(** ** Three equal contractions *)
(** Three orbitals; the tensors are products of (x_a - x_b) over the pairs of their lower and of their upper orbitals. *)
Definition pos3 (x : option bool) : rat := if x is Some b then (b : nat)%:R else -1.
Definition vdm (w : seq (Z * option bool)) : rat :=
  match w with
  | [::] => 1
  | [:: a; b; c] => (pos3 a.2 - pos3 b.2) * (pos3 b.2 - pos3 c.2) * (pos3 a.2 - pos3 c.2)
  | _ => 0
  end.
Definition wm_T (_ : text) (lo up : seq (Z * option bool)) (_ : bool) : rat := vdm lo * vdm up.
Definition wm_orbs (s : Z) : seq (option bool) := [:: None; Some false; Some true].
Lemma vdm_alternating : alternating -%R vdm.
Proof.
  have Z0 w : length w <> 0%N -> length w <> 3%N -> vdm w = 0 by case: w => [|a [|b [|c [|d w]]]].
  move=> l1 x y l2. case: (Nat.eq_dec (length (List.app l1 (x :: y :: l2))) 3%N) => [E|N].
  - move: E. rewrite List.app_length /=. case: l1 => [|a [|? l1]] /=; case: l2 => [|c [|? l2]] /= E; try lia.
    + by case: x => ? [[]|]; case: y => ? [[]|]; case: c => ? [[]|]; apply/eqP; vm_compute.
    + by case: x => ? [[]|]; case: y => ? [[]|]; case: a => ? [[]|]; apply/eqP; vm_compute.
  - rewrite !Z0 ?oppr0 //; rewrite List.app_length /=; move: N; rewrite List.app_length /=; lia.
Qed.
Lemma wm_HT x : In x cw_ops -> antisymmetric_tensor wm_T (op_label x).
Proof. move=> _. split=> [lo|up] l1 a b l2; rewrite /wm_T vdm_alternating ?mulrN ?mulNr //. Qed.
Lemma wm_single : single_reference wo_st.
Proof. move=> s Hs. have -> : s = Z0 by exact: cw_space. split=> //. by left. Qed.
Lemma wm_value (phi0 : index -> option bool) : expr_value (@no_operators [fieldType of rat] _) wm_T wm_orbs phi0 [:: (cw_t, mkR one three)] = 8%:R :> rat^o.
Proof.
  rewrite /expr_value /= /term_value.
  have -> : nodup index_dec (slots cw_t) = [:: mkI 0 0; mkI 0 1; mkI 0 two] by exact: cw_slots.
  rewrite /sum_over /value_at /cw_t /= !(big_cons, big_nil). by apply/eqP; vm_compute.
Qed.
(** [contract] returns 8 for an expectation value of 4 (in every representation): the fully contracted product of the three
    creation operators of A with the three annihilation operators of B is counted twice. *)
Theorem C70_triple_refuted : exists (o : wt_opts) (st : osi) (ops : oprod) (r : expression),
  single_reference st /\ ops_ok st ops /\ (forall x, In x ops -> antisymmetric_tensor wm_T (op_label x)) /\ (forall s, uniq (wm_orbs s)) /\
  contract o st (rat_of_Z one) ops Z0 Z0 (Ok r) /\
  forall (A : algType [fieldType of rat]) (cre ann : Z -> option bool -> A) (f : {linear A -> rat^o}) (phi0 : index -> option bool),
    ladder_relations st cre ann -> reference_state st cre ann f ->
    expr_value (@no_operators [fieldType of rat] _) wm_T wm_orbs phi0 r = 8%:R :> rat^o /\ f (product_value st cre ann wm_T wm_orbs phi0 ops) = 4%:R :> rat^o.
Proof.
  exists (mkWT hundred false), wo_st, cw_ops, [:: (cw_t, mkR one three)]. split; first exact: wm_single. split; first exact: cw_ok. split; first exact: wm_HT. split; first by [].
  split; first exact: cw_contract. move=> A cre ann f phi0 HL Rf. have V := wm_value phi0. split=> //.
  have E := @C70_expectation_value [fieldType of rat] A _ wo_st cre ann wm_T wm_orbs phi0 (mkWT hundred false) (rat_of_Z one) cw_ops two _ f
    (@Num.Theory.char_num _) HL wm_single (fun s => erefl) cw_ok wm_HT (rat_of_Z_canonical one) Rf cw_uniform cw_contract.
  move: E. rewrite V ratK_Z zr1 mulr1 => E. have -> : f (product_value wo_st cre ann wm_T wm_orbs phi0 cw_ops) = 2%:R^-1 * 8%:R :> rat^o by rewrite E mulrA mulVf ?mul1r.
  by apply/eqP; vm_compute.
Qed.
Print Assumptions C70_triple_refuted.
(** The hypotheses of C70 hold for it with [w] = 2, and there are such representations. *)
Example C70_nonvacuous : uniform_weight wo_st hundred cw_ops Z0 Z0 two /\ ~ at_most_double wo_st cw_ops /\
  exists (A : algType [fieldType of rat]) (cre ann : Z -> option bool -> A) (f : {linear A -> rat^o}), ladder_relations wo_st cre ann /\ reference_state wo_st cre ann f.
Proof.
  split; first exact: cw_uniform. split; last exact: (C48_fock_space _ [finType of option bool] wm_single).
  exact: cw_not_double.
Qed.
(** ... and for half-filled general orbitals. *)
Definition wa_T (_ : text) (lo up : seq (Z * option bool)) (_ : bool) : rat :=
  if (lo, up) is ([:: p], [:: q]) then 2%:R^-1 * (p.2 == q.2)%:R else vdm lo * vdm up.
Example C70_general_nonvacuous : multi_reference wa_st /\ (exists s, registered wa_st s /\ stype wa_st s = Some General) /\ densities wa_st wa_T /\ ops_ok wa_st cw_ops /\
  (forall x, In x cw_ops -> antisymmetric_tensor wa_T (op_label x)) /\ uniform_weight wa_st (Z.of_nat 1) cw_ops Z0 Z0 two /\ ~ no_triple wa_st 1 cw_ops /\
  (exists r, contract (mkWT one true) wa_st (rat_of_Z one) cw_ops Z0 Z0 (Ok r)) /\
  exists (A : algType [fieldType of rat]) (cre ann : Z -> option bool -> A) (N : seq (bool * (Z * option bool)) -> A),
    ladder_relations wa_st cre ann /\ generalized_normal_product wa_st cre ann wa_T 1 N.
Proof.
  have HM : multi_reference wa_st. { move=> s Hs. have -> : s = Z0 by exact: wa_space. split=> //. by right; right. }
  have HA label : antisymmetric_tensor wa_T label.
  { have X (g : bool -> seq (Z * option bool) -> seq (Z * option bool) -> rat) w l1 x y l2 : (forall b v u, g b v u = wa_T label v u b) ->
      wa_T label w (l1 ++ x :: y :: l2)%list false = - wa_T label w (l1 ++ y :: x :: l2)%list false.
    { move=> _. have E : wa_T label w (l1 ++ x :: y :: l2)%list false = vdm w * vdm (l1 ++ x :: y :: l2)%list by rewrite /wa_T; case: (w) => [|? [|? ?]] //; case: (l1) => [|? [|? ?]].
      have E' : wa_T label w (l1 ++ y :: x :: l2)%list false = vdm w * vdm (l1 ++ y :: x :: l2)%list by rewrite /wa_T; case: (w) => [|? [|? ?]] //; case: (l1) => [|? [|? ?]].
      by rewrite E E' vdm_alternating mulrN. }
    have Sy v u b : wa_T label v u b = wa_T label u v b by rewrite /wa_T; case: v => [|p [|? ?]]; case: u => [|q [|? ?]] //; first [exact: mulrC|by rewrite [in LHS]eq_sym].
    split=> [lo|up] l1 x y l2; first exact: (X (fun b v u => wa_T label v u b)). rewrite Sy [in RHS]Sy. exact: (X (fun b v u => wa_T label v u b)). }
  split=> //. split; first by exists Z0. split. { split=> // s p q _ _. rewrite /wa_T /= [q == p]eq_sym. case: (p == q); rewrite ?mulr0 ?subr0 // mulr1. }
  split; first exact: wa_ok. split; first by move=> x _; exact: HA. split; first exact: wa_uniform.
  split. { move=> H. have [c [Ac Ec]] := wa_triple. exact: (H c Ac Ec). }
  split; first exact: wa_contract.
  have [d dE] := fock_dim [finType of 'I_(Z.to_nat (num_spaces wa_st)).+1 * option bool].
  have [HL _] := @C61_fock_space [fieldType of rat] wa_st [finType of option bool] HM d dE.
  have [N [HN _]] := @C61_normal_product [fieldType of rat] _ _ wa_st (fock_cre [fieldType of rat] dE) (fock_ann [fieldType of rat] dE) wa_T 1.
  by exists _, (fock_cre [fieldType of rat] dE), (fock_ann [fieldType of rat] dE), N.
Qed.
