(** C74: expectation values, general reference states, programs, totality. *)
Set Warnings "-notation-overridden,-ambiguous-paths".
From Coq Require Import ZArith QArith List Lia Ascii String Permutation.
From mathcomp Require Import all_ssreflect ssralg.
From Verif Require Import Res RationalModel RationalSpec RationalProofs RegistryModel RegistryProofs CoreModel OrderProofs AlgebraModel AlgebraSpec AlgebraProofs OperatorModel OperatorSpec SortSpec SortProofs ScalarSem LadderSpec CanonSemSpec CanonSemProofs WickSearchModel WickSearchSpec WickEvalModel WickCombSpec WickLegSpec
  WickLegProofs WickPairSpec WickPairProofs4 WickProductSpec WickTheoremSpec WickTotalProofs WickLinearSpec WickLinearProofs WickProductProofs14 WickProductProofs15 WickGeneralSpec WickGenProofs13 WickGeneralExample ContractShapeSpec ContractShapeProofs2 ContractShapeProofs3 OperatorSemSpec OperatorSemProofs
  DecimalModel TextModel TextSpec EquationModel EquationSpec EinsumSpec PipeSpec PipeProofs PipeProofs4 PipeProofs5 PipeProofs6 PipeProofs7 BchProofs BchWickSpec BchWickProofs BchWickProofs2 BchWickProofs3 BchWickProofs4.
Set Implicit Arguments.
Unset Strict Implicit.
Unset Printing Implicit Defensive.
Import GRing.Theory.
Local Open Scope ring_scope.
Delimit Scope Z_scope with Z.

(** ** Expectation values *)
Lemma series_keys (K : fieldType) (orb : eqType) st (T : text -> seq (Z * orb) -> seq (Z * orb) -> bool -> K) a b (n : nat) na nb r0 : operators_ok st T a -> operators_ok st T b -> legs_at_most a na -> legs_at_most b nb -> (0 <= nb)%Z ->
  bch_series a b (Z.of_nat n) = Ok r0 -> keysP (made_of (fun q => operators_of a q \/ operators_of b q) (na + Z.of_nat n * nb)) r0.
Proof. move=> Oa Ob La Lb N0 E. by apply: (made_bch N0 _ _ E); apply: made_expr => // q Hq; [left|right]. Qed.
Lemma series_ok (K : fieldType) (orb : eqType) st (T : text -> seq (Z * orb) -> seq (Z * orb) -> bool -> K) a b (n : nat) na nb r0 : operators_ok st T a -> operators_ok st T b -> legs_at_most a na -> legs_at_most b nb -> (0 <= nb)%Z ->
  bch_series a b (Z.of_nat n) = Ok r0 -> forall x, In x r0 -> ops_ok st x.1 /\ (ops_rank x.1 <= na + Z.of_nat n * nb)%Z.
Proof.
  move=> Oa Ob La Lb N0 E x Hx. have [H1 H2] := proj1 (List.Forall_forall _ _) (series_keys Oa Ob La Lb N0 E) x Hx. split=> //. split; first by case: Oa.
  apply/List.Forall_forall => q /H1 [/(proj2 Oa)|/(proj2 Ob)]; by move=> [? [? _]].
Qed.
Section Energy.
  Variables (K : fieldType) (A : algType K) (orb : eqType) (st : osi) (cre ann : Z -> orb -> A).
  Hypothesis ch : [char K] =i pred0.
  Hypothesis HL : ladder_relations st cre ann.
  Hypothesis HS : single_reference st.
  Variables (T : text -> seq (Z * orb) -> seq (Z * orb) -> bool -> K) (orbs : Z -> seq orb) (phi0 : index -> orb).
  Hypothesis U : forall s, uniq (orbs s).
  Variables (o : wt_opts) (factor : rational) (f : {linear A -> K^o}).
  Hypothesis Cf : canonical factor.
  Hypothesis Rf : reference_state st cre ann f.
  Notation value := (opexpr_value st cre ann T orbs phi0).
  Lemma contract_energy a b (n d : nat) nb r0 r m : wf oprod_ltb a -> wf oprod_ltb b -> operators_ok st T a -> operators_ok st T b -> (forall q, operators_of a q -> two_body st q) -> cluster_operator st b ->
    legs_at_most a (Z.of_nat d) -> (d <= n)%N -> legs_at_most b nb -> (0 <= nb)%Z -> value b ^+ m = 0 ->
    bch_series a b (Z.of_nat n) = Ok r0 -> contract_expr o st factor r0 0 0 (Ok r) ->
    expr_value (@no_operators K orb) T orbs phi0 r = ratK K factor * f (exponential m (- value b) * value a * exponential m (value b)).
  Proof.
    move=> Wa Wb Oa Ob Ta Cb La Ld Lb N0 Z E C. rewrite -(@scalar_expr K A orb T orbs phi0 (normal_product st cre ann) f).
    - exact: (contract_exact ch HL HS U Cf Wa Wb Oa Ob Ta Cb La Ld Lb N0 (only_zero Rf (bound := _)) Z E C).
    - exact: ref_one Rf.
    - by apply: scalar_terms C => x Hx; case: (series_ok Oa Ob La Lb N0 E Hx).
  Qed.
End Energy.

(** ** General spaces *)
Section General.
  Variables (K : fieldType) (A : algType K) (orb : eqType) (st : osi) (cre ann : Z -> orb -> A).
  Hypothesis ch : [char K] =i pred0.
  Hypothesis HL : ladder_relations st cre ann.
  Hypothesis HS : multi_reference st.
  Variables (T : text -> seq (Z * orb) -> seq (Z * orb) -> bool -> K) (orbs : Z -> seq orb) (phi0 : index -> orb).
  Hypothesis U : forall s, uniq (orbs s).
  Variables (maxc : nat) (N : seq (bool * (Z * orb)) -> A) (o : wt_opts) (factor : rational) (minr maxr : Z) (V : lmodType K) (f : {linear A -> V}).
  Hypothesis M1 : (1 <= maxc)%N.
  Hypothesis Em : wt_maxcumulant o = Z.of_nat maxc.
  Hypothesis HD : densities st T.
  Hypothesis HN : generalized_normal_product st cre ann T maxc N.
  Hypothesis Cf : canonical factor.
  Notation value := (gopexpr_value st T N orbs phi0).
  Lemma good_gproduct (S : oper -> Prop) p : (nsp st <= max_spaces)%coq_nat -> (forall q, S q -> op_valid st q /\ nonneg_counts st q /\ antisymmetric_tensor T (op_label q)) ->
    (forall q q', S q -> S q' -> never_thrice st q q') -> (forall q, In q p -> S q) -> gproduct_ok st T maxc p.
  Proof.
    move=> Ns Vd D H. split; last split.
    - split=> //. apply/List.Forall_forall => q /H /Vd [? [? _]]. by split.
    - apply: few_legs_no_triple => i j s Li Lj _ Hs. have In' k : (k < Datatypes.length p)%coq_nat -> In (List.nth k p (mkOp [::] gm_zero)) p by exact: List.nth_In.
      exact: (D _ _ (H _ (In' i Li)) (H _ (In' j Lj)) s Hs).
    - by move=> q /H /Vd [_ []].
  Qed.
  Lemma contract_gbch a b (n : nat) na nb r0 r : wf oprod_ltb a -> wf oprod_ltb b -> operators_ok st T a -> operators_ok st T b ->
    (forall q q', operators_of a q \/ operators_of b q -> operators_of a q' \/ operators_of b q' -> never_thrice st q q') ->
    legs_at_most a na -> legs_at_most b nb -> (0 <= nb)%Z -> gonly_ranks st N f (na + Z.of_nat n * nb) minr maxr ->
    bch_series a b (Z.of_nat n) = Ok r0 -> contract_expr o st factor r0 minr maxr (Ok r) -> f (expr_value N T orbs phi0 r) = ratK K factor *: f (bch_sum (value a) (value b) n).
  Proof.
    move=> Wa Wb Oa Ob D La Lb N0 Hf E C. have Kr := series_keys Oa Ob La Lb N0 E.
    have [r1 [E1 [W1 Er]]] := @bch_series_den K A ch (gop_value st T N orbs phi0) a b (Z.of_nat n) Wa Wb. rewrite E in E1. case: E1 => Q. subst r1. rewrite Nat2Z.id in Er.
    transitivity (ratK K factor *: f (value r0)); last by congr (_ *: f _); exact: Er.
    apply: (gexpr_contract ch HL HS M1 HD HN U phi0 Em Cf _ _ C); first by case: W1 => _ [].
    move=> x Hx. have [H1 H2] := proj1 (List.Forall_forall _ _) Kr x Hx. split.
    - apply: (good_gproduct (S := fun q => operators_of a q \/ operators_of b q)) => //; [by case: Oa|by move=> q [/(proj2 Oa)|/(proj2 Ob)]].
    - move=> w Hw Hs. apply: Hf => //. lia.
  Qed.
End General.

(** ** Totality *)
Lemma fold_ok rs acc : (forall r, In r rs -> exists e, r = Ok e) -> exists e, foldM add_result acc rs = Ok e.
Proof.
  elim: rs acc => [|r rs IH] acc H; first by exists acc. have [e Er] := H r (or_introl erefl). subst r. cbn [foldM add_result bind]. apply: IH => r Hr. by apply: H; right.
Qed.
Lemma few_in_space st p : ops_ok st p -> (ops_rank p <= 32)%Z -> forall s, is_space st s -> (legs_in_space p s <= 32)%Z.
Proof.
  move=> Ok L s Hs. rewrite -(cnt_legs st p s Hs).
  - have := legs_rank st p Ok. move: (product_legs st p) => l. have : (cnt s l <= Datatypes.length l)%coq_nat by rewrite /cnt; elim: l => [|x l IH] //=; case: (_ =? _)%Z => /=; lia. lia.
  - move=> i Hi. case: Ok => _ F. have [_ H] := proj1 (List.Forall_forall _ _) F (List.nth i p (mkOp [::] gm_zero)) (List.nth_In _ _ Hi). have := H s Hs. by [].
Qed.
Lemma contract_expr_total o st factor e minr maxr : (forall x, In x e -> ops_ok st x.1 /\ (ops_rank x.1 <= 32)%Z) -> exists r, contract_expr o st factor e minr maxr (Ok r).
Proof.
  move=> H. suff [rs [F G]] : exists rs, List.Forall2 (fun x r => contract o st (rat_mul factor x.2) x.1 minr maxr r) e rs /\ forall r, In r rs -> exists l, r = Ok l.
  { have [r Er] := fold_ok [::] G. exists r. exists rs. by rewrite Er. }
  elim: e H => [|x e IH] H; first by exists [::]; split. have [rs [F G]] := IH (fun y Hy => H y (or_intror Hy)). have [Ok L] := H x (or_introl erefl).
  have L' : (ops_rank x.1 <= 201)%Z by lia.
  have [r Hr] := contract_defined o st (rat_mul factor x.2) x.1 minr maxr Ok. have [l El] := contract_succeeds o st (rat_mul factor x.2) x.1 minr maxr Ok r (few_in_space Ok L) L' Hr.
  exists (r :: rs). split; first by constructor. move=> r' [<-|/G //]. by exists l.
Qed.
