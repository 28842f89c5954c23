(** C80: canonicalizing an operator expression before contracting it. *)
Set Warnings "-notation-overridden,-ambiguous-paths".
From Coq Require Import ZArith List Lia Permutation.
From mathcomp Require Import all_ssreflect ssralg.
From Verif Require Import Res RationalModel RationalSpec RationalProofs RegistryModel CoreModel OrderProofs AlgebraModel AlgebraSpec AlgebraProofs OperatorModel OperatorSpec OperatorProofs SortSpec SortProofs ScalarSem LadderSpec CanonSemSpec CanonSemProofs WickSearchModel WickSearchSpec WickEvalModel WickCombSpec WickLegSpec
  WickLegProofs WickPairSpec WickPairProofs4 WickProductSpec WickTheoremSpec WickTotalProofs WickLinearSpec WickLinearProofs WickCombProofs WickProductProofs15 ContractShapeSpec ContractShapeProofs2 OperatorSemSpec OperatorSemProofs BchProofs BchWickSpec BchWickProofs BchWickProofs2 BchWickProofs3 BchWickProofs4 PipeProofs5.
From Verif Require PyOpProofs.
Set Implicit Arguments.
Unset Strict Implicit.
Unset Printing Implicit Defensive.
Import GRing.Theory.
Local Open Scope ring_scope.

(** ** Counting legs *)
Lemma filter_perm (T : Type) (p : T -> bool) u v : Permutation u v -> Permutation (List.filter p u) (List.filter p v).
Proof. elim=> [|x l l' _ IH|x y l|l l' l'' _ IH1 _ IH2] //=; [by case: (p x); [constructor|]|by case: (p x); case: (p y) => //; constructor|exact: Permutation_trans IH1 IH2]. Qed.
Lemma filter_seq (T : Type) (p : T -> bool) u : filter p u = List.filter p u.
Proof. by []. Qed.
Lemma filter_map_list (T U : Type) (g : T -> U) (p : U -> bool) l : List.filter p (List.map g l) = List.map g (List.filter (fun x => p (g x)) l).
Proof. elim: l => [|x l IH] //=. by case: (p (g x)) => /=; rewrite IH. Qed.

Section One.
  Variables (st : osi) (o : oper).
  Hypothesis Ok : ops_ok st [:: o].
  Lemma count_kind b s : is_space st s -> (0 <= (if b then cre_of (op_gm o) s else ann_of (op_gm o) s))%Z ->
    Z.of_nat (length (List.filter (fun l : leg => (leg_cre l == b) && Z.eqb (leg_space l) s) (product_legs st [:: o]))) = if b then cre_of (op_gm o) s else ann_of (op_gm o) s.
  Proof.
    move=> Hs N0. set c := (if b then _ else _) in N0 *.
    have P : Permutation (List.filter (fun l : leg => (leg_cre l == b) && Z.eqb (leg_space l) s) (product_legs st [:: o])) (List.map (fun i => ((0%N, s, b), i)) (range c)).
    { apply: NoDup_Permutation; first by apply: List.NoDup_filter; exact: product_nodup.
      - apply: FinFun.Injective_map_NoDup; [by move=> x y [E]|exact: range_nodup].
      - move=> [[[k s'] b'] i]. rewrite List.filter_In in_product List.in_map_iff /leg_op /leg_cre /leg_space /=. split.
        + move=> [[Lk [Hs' Hi]] /andP [/eqP E1 /Z.eqb_spec E2]]. subst b' s'. have K0 : k = 0%N by lia. subst k. exists i. split=> //. apply/range_in. move: Hi. by rewrite /leg_count /ops_cre /ops_ann /=; rewrite /c; case: (b).
        + move=> [j [[E1 E2 E3 E4] /range_in Hj]]. subst k s' b' j. rewrite eqxx Z.eqb_refl. split; last by []. split; first lia. by split. }
    rewrite (Permutation_length P) List.map_length /range List.map_length List.seq_length. by rewrite Z2Nat.id.
  Qed.
End One.

Section Value.
  Variables (K : fieldType) (A : algType K) (orb : eqType) (st : osi) (cre ann : Z -> orb -> A).
  Hypothesis ch : [char K] =i pred0.
  Hypothesis HL : ladder_relations st cre ann.
  Hypothesis HS : single_reference st.
  Hypothesis N : (nsp st <= max_spaces)%coq_nat.
  Variables (T : text -> seq (Z * orb) -> seq (Z * orb) -> bool -> K) (orbs : Z -> seq orb) (phi0 : index -> orb).
  Notation opv := (op_value st cre ann T orbs phi0).
  Definition flat (x : bool * (Z * orb)) : bool * Z * orb := (x.1, x.2.1, x.2.2).
  Lemma flat_word w : \prod_(x <- w) ladder cre ann x = word_den cre ann (map flat w).
  Proof. by rewrite /word_den big_map. Qed.
  Lemma op_combination o : proper st o -> combination_for st cre ann o (opv o).
  Proof.
    move=> [Vo No]. have [l [H ->]] := op_words st cre ann T orbs phi0 o. exists (map (fun y => (y.1, map flat y.2)) l). split; last first.
    - rewrite big_map. apply: eq_bigr => y _ /=. congr (_ *: _). exact: flat_word.
    - move=> z /List.in_map_iff [y [<- Hy]] /=. have [phi Pv] := H y Hy. split.
      + move=> x /List.in_map_iff [v [<- Hv]] /=. move: Hv => /(Permutation_in _ Pv) /List.in_map_iff [lg [<- /in_product [_ [Hs _]]]]. exact: Hs.
      + have C b s : registered st s -> (0 <= (if b then cre_of (op_gm o) s else ann_of (op_gm o) s))%Z -> Z.of_nat (size (in_space b s (map flat y.2))) = if b then cre_of (op_gm o) s else ann_of (op_gm o) s.
        { move=> Hs N0. rewrite -(@count_kind st o b s Hs N0). congr Z.of_nat. rewrite /in_space filter_map size_map filter_seq.
          have P := filter_perm (preim flat (fun x : bool * Z * orb => (x.1.1 == b) && Z.eqb x.1.2 s)) Pv. rewrite [LHS](Permutation_length P) filter_map_list List.map_length. by []. }
        move=> s Hs. have [N1 N2] := No s Hs. split; [exact: (C true s Hs N1)|exact: (C false s Hs N2)].
  Qed.
  Lemma single_fermions : all_fermions st.
  Proof. by move=> s /HS []. Qed.
  Lemma ops_commuting : graded_commuting opv st (proper st).
  Proof. exact: (combinations_commute HL single_fermions N op_combination). Qed.
  Lemma canon_value e : mcanon e -> keysP (List.Forall (proper st)) e -> opexpr_value st cre ann T orbs phi0 (opexpr_canonicalize st e) = opexpr_value st cre ann T orbs phi0 e.
  Proof. move=> Ce Pe. exact: (opexpr_canon_den ch ops_commuting Pe Ce). Qed.
End Value.

(** ** The products of the canonicalized expression *)
Lemma canon_keys st (P : oprod -> Prop) e : (forall p q, Permutation p q -> P p -> P q) -> keysP P e -> keysP P (opexpr_canonicalize st e).
Proof.
  move=> HP Pe. rewrite /opexpr_canonicalize. have X : forall r, keysP P r -> keysP P (List.fold_left (fun r x => let '(p, s) := oprod_canonicalize st x.1 in madd oprod_ltb p (rat_mul (rat_of_Z s) x.2) r) e r); last by apply: X; constructor.
  elim: e Pe => [|x e IH] Pe r Pr //=. have Px := List.Forall_inv Pe. apply: IH (List.Forall_inv_tail Pe) _ _. case E: (oprod_canonicalize st x.1) => [p s]. apply: keysP_madd Pr. apply: HP Px. exact: cs_perm (canonicalize_swaps _ _ _ _ E).
Qed.
Lemma made_perm (S : oper -> Prop) n p q : Permutation p q -> made_of S n p -> made_of S n q.
Proof. move=> P [H R]. split; last by rewrite -(rank_perm _ _ P). move=> o Ho. apply: H. exact: Permutation_in (Permutation_sym P) Ho. Qed.

Section Contract.
  Variables (K : fieldType) (A : algType K) (orb : eqType) (st : osi) (cre ann : Z -> orb -> A).
  Hypothesis ch : [char K] =i pred0.
  Hypothesis HL : ladder_relations st cre ann.
  Hypothesis HS : single_reference st.
  Variables (T : text -> seq (Z * orb) -> seq (Z * orb) -> bool -> K) (orbs : Z -> seq orb) (phi0 : index -> orb).
  Hypothesis U : forall s, uniq (orbs s).
  Variables (o o' : wt_opts) (factor : rational) (minr maxr : Z) (V : lmodType K) (f : {linear A -> V}).
  Hypothesis Cf : canonical factor.
  Notation value := (opexpr_value st cre ann T orbs phi0).
  Notation result r := (f (expr_value (normal_product st cre ann) T orbs phi0 r)).
  Lemma good_keys e : operators_ok st T e -> keysP (List.Forall (proper st)) e.
  Proof. move=> [_ H]. apply/List.Forall_forall => x Hx. apply/List.Forall_forall => q Hq. have [|V1 [V2 _]] := H q; first by exists x. by split. Qed.
  Lemma canon_contract e n r r' : wf oprod_ltb e -> operators_ok st T e -> (forall q q', operators_of e q -> operators_of e q' -> twice_at_most st q q') ->
    legs_at_most e n -> only_ranks st cre ann f n minr maxr ->
    contract_expr o st factor e minr maxr (Ok r) -> contract_expr o' st factor (opexpr_canonicalize st e) minr maxr (Ok r') -> result r' = result r.
  Proof.
    move=> We Oe De Le Hf C C'. have Ne := proj1 Oe. have Kr := made_expr (fun q (H : operators_of e q) => H) Le.
    have Ke := canon_keys st (@made_perm (operators_of e) n) Kr. have We' := PyOpProofs.canon_wf st _ We.
    rewrite (contract_made ch HL HS phi0 U Cf Ne (proj2 Oe) De Hf We Kr C).
    rewrite (contract_made ch HL HS phi0 U Cf Ne (proj2 Oe) De Hf We' Ke C'). congr (_ *: f _).
    apply: (canon_value ch HL HS Ne); [by case: We => _ []|exact: good_keys].
  Qed.
  (** Expressions with the same canonical form. *)
  Lemma same_canon_contract e1 e2 n1 n2 r1 r2 : wf oprod_ltb e1 -> wf oprod_ltb e2 -> operators_ok st T e1 -> operators_ok st T e2 ->
    (forall q q', operators_of e1 q -> operators_of e1 q' -> twice_at_most st q q') -> (forall q q', operators_of e2 q -> operators_of e2 q' -> twice_at_most st q q') ->
    legs_at_most e1 n1 -> legs_at_most e2 n2 -> only_ranks st cre ann f n1 minr maxr -> only_ranks st cre ann f n2 minr maxr -> opexpr_canonicalize st e1 = opexpr_canonicalize st e2 ->
    contract_expr o st factor e1 minr maxr (Ok r1) -> contract_expr o' st factor e2 minr maxr (Ok r2) -> result r1 = result r2.
  Proof.
    move=> W1 W2 O1 O2 D1 D2 L1 L2 Hf1 Hf2 E C1 C2. have Ne := proj1 O1.
    rewrite (contract_made ch HL HS phi0 U Cf Ne (proj2 O1) D1 Hf1 W1 (made_expr (fun q (H : operators_of e1 q) => H) L1) C1).
    rewrite (contract_made ch HL HS phi0 U Cf Ne (proj2 O2) D2 Hf2 W2 (made_expr (fun q (H : operators_of e2 q) => H) L2) C2). congr (_ *: f _).
    rewrite -(canon_value ch HL HS Ne _ _ _ (e := e1)); [|by case: W1 => _ []|exact: good_keys].
    rewrite -(canon_value ch HL HS Ne _ _ _ (e := e2)); [|by case: W2 => _ []|exact: good_keys]. by rewrite E.
  Qed.
End Contract.
