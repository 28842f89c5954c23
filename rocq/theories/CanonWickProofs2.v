(** C80: the same with general spaces and a correlated reference state. *)
Set Warnings "-notation-overridden,-ambiguous-paths".
From Coq Require Import ZArith List Lia Permutation.
From mathcomp Require Import all_ssreflect ssralg.
From Verif Require Import Res RationalModel RationalSpec RationalProofs RegistryModel CoreModel OrderProofs AlgebraModel AlgebraSpec AlgebraProofs OperatorModel OperatorSpec OperatorProofs OperatorProofs3 SortSpec SortProofs ScalarSem LadderSpec CanonSemSpec CanonSemProofs WickSearchModel WickSearchSpec WickEvalModel WickCombSpec WickLegSpec
  WickLegProofs WickPairSpec WickPairProofs4 WickProductSpec WickTheoremSpec WickTotalProofs WickLinearSpec WickLinearProofs WickCombProofs WickProductProofs15 ContractShapeSpec ContractShapeProofs2 OperatorSemSpec OperatorSemProofs BchProofs BchWickSpec BchWickProofs BchWickProofs2 BchWickProofs3 BchWickProofs4 BchWickProofs5 PipeProofs5
  WickGeneralSpec WickConvProofs WickGenProofs WickGenProofs13 CanonWickProofs.
From Verif Require PyOpProofs.
Set Implicit Arguments.
Unset Strict Implicit.
Unset Printing Implicit Defensive.
Import GRing.Theory.
Local Open Scope ring_scope.

Lemma splits_in (X : Type) (w : seq X) p : In p (splits w) -> forall x, In x p.2 -> In x w.
Proof.
  elim: w p => [|a w IH] p /=; first by move=> [<-|[]].
  move=> /List.in_app_iff [] /List.in_map_iff [q [<- Hq]] x /=; first by move=> Hx; right; exact: IH Hq x Hx.
  move=> [->|Hx]; [by left|right; exact: IH Hq x Hx].
Qed.
Lemma odd_even n : Z.even (Z.of_nat n) = ~~ odd n. Proof. exact: even_nat. Qed.

Section General.
  Variables (K : fieldType) (A : algType K) (orb : eqType) (st : osi) (cre ann : Z -> orb -> A).
  Hypothesis ch : [char K] =i pred0.
  Hypothesis HL : ladder_relations st cre ann.
  Hypothesis HS : multi_reference st.
  Variables (T : text -> seq (Z * orb) -> seq (Z * orb) -> bool -> K) (orbs : Z -> seq orb) (phi0 : index -> orb).
  Variables (maxc : nat) (N : seq (bool * (Z * orb)) -> A).
  Hypothesis HN : generalized_normal_product st cre ann T maxc N.
  Notation letter := (bool * (Z * orb))%type.
  Notation span := (span cre ann).
  Notation wp := (wp cre ann).
  Definition sub (w v : seq letter) : Prop := (forall x, In x v -> In x w) /\ odd (size v) = odd (size w).
  Lemma vacuum_word w : span (fun v => Permutation v w) (vacuum_product cre ann w).
  Proof.
    elim: w => [|x w IH] /=; first by have -> : (1 : A) = wp [::] by [rewrite /BchWickProofs2.wp big_nil]; apply: span_word.
    have W : span (fun v => v = [:: x]) (ladder cre ann x) by have := @span_word _ _ _ cre ann (fun v => v = [:: x]) [:: x] erefl; rewrite /BchWickProofs2.wp big_seq1.
    case: ifP => _.
    - by apply: (@span_mul _ _ _ cre ann (fun v => v = [:: x]) (fun v => Permutation v w)) W IH => v u -> P; exact: perm_skip.
    - apply: spanZ. apply: (@span_mul _ _ _ cre ann (fun v => Permutation v w) (fun v => v = [:: x])) IH W => v u P ->.
      by apply: Permutation_trans (Permutation_sym (Permutation_cons_append _ _)) _; exact: perm_skip.
  Qed.
  Lemma general_word w : (forall x, In x w -> registered st x.2.1) -> span (sub w) (N w).
  Proof.
    move=> Hw. have Ec := @cum_even K orb st T maxc. rewrite -(NG_unique (cre := cre) (ann := ann) Ec _ Hw); last first.
    { move=> u Hu. rewrite (HN Hu) conv_splits. by []. }
    rewrite /NG conv_splits /split_sum. apply: span_sum => p Hp. case O: (odd (size p.1.2)).
    - have -> : moment (fun b => - cumulant st T maxc b) p.1.2 = 0 by apply: moment_even => // b Ob; rewrite Ec ?oppr0. rewrite mulr0 scale0r. exact: span0.
    - apply: spanZ. rewrite vac_product; last by move=> x Hx; apply: Hw; exact: splits_in Hp x Hx. apply: span_imp (vacuum_word p.2) => v P. split.
      + move=> x Hx. apply: (splits_in Hp). exact: Permutation_in P Hx.
      + have -> : size v = size p.2 by exact: Permutation_length P. by rewrite -(splits_size Hp) oddD O.
  Qed.
  Notation gopv := (gop_value st T N orbs phi0).
  Definition from_op (o : oper) (v : seq letter) : Prop := (forall x, In x v -> exists l, In l (product_legs st [:: o]) /\ x.1 = leg_cre l /\ x.2.1 = leg_space l) /\ odd (size v) = ~~ Z.even (op_num o).
  Lemma gop_words o : ops_ok st [:: o] -> span (from_op o) (gopv o).
  Proof.
    move=> Ok. rewrite /gop_value. apply: spanZ. rewrite /term_value. apply: span_sum_over => phi. rewrite /value_at. apply: spanZ.
    have E : word phi (tm_ops (op_as_term st o)) = List.map (leg_letter (fun l => phi (op_index o l))) (product_legs st [:: o]) by rewrite /op_as_term /= /word List.map_map.
    rewrite E. apply: span_imp; last first.
    - apply: general_word => x /List.in_map_iff [l [<- /in_product [_ [Hs _]]]]. exact: Hs.
    - move=> v [H1 H2]. split.
      + move=> x /H1 /List.in_map_iff [l [<- Hl]]. by exists l.
      + rewrite H2. have L := legs_rank st [:: o] Ok. have -> : op_num o = Z.of_nat (size (List.map (leg_letter (fun l => phi (op_index o l))) (product_legs st [:: o]))).
        { rewrite [size _]List.map_length L. by rewrite /ops_rank /=. }
        by rewrite odd_even negbK.
  Qed.
  Lemma multi_fermions : all_fermions st.
  Proof. by move=> s /HS []. Qed.
  Lemma leg_positive o l : In l (product_legs st [:: o]) -> registered st (leg_space l) /\ (0 < if leg_cre l then cre_of (op_gm o) (leg_space l) else ann_of (op_gm o) (leg_space l))%Z.
  Proof.
    case: l => [[[k s] b] i] /in_product [Hl [Hs Hi]]. split; first exact: Hs. move: Hl Hi. rewrite /leg_op /leg_cre /leg_space /leg_count /ops_cre /ops_ann /= => Hl Hi.
    have K0 : k = 0%N by lia. subst k. move: Hi. clear. by case: b => /=; lia.
  Qed.
  Lemma from_noshare a b v u : nonneg_counts st a -> nonneg_counts st b -> ops_commute st a b = true -> from_op a v -> from_op b u -> noshare (map (@flat orb) v) (map (@flat orb) u).
  Proof.
    move=> Na Nb /(ops_commute_iff st a b Na Nb) S [Hv _] [Hu _] x y /List.in_map_iff [x' [<- Hx]] /List.in_map_iff [y' [<- Hy]] /= [D E].
    have [l [/leg_positive [R P] [E1 E2]]] := Hv _ Hx. have [l' [/leg_positive [R' P'] [E3 E4]]] := Hu _ Hy. move: P P' D. rewrite -E1 -E2 -E3 -E4 -E => P P' D.
    have R0 : registered st x'.2.1 by rewrite E2. have [S1 S2] := S _ R0. move: P P' D. by case: x'.1; case: y'.1 => // P P' _; [case: S1|case: S2]; lia.
  Qed.
  Lemma parity_sign (n m : nat) (x y : Z) : odd n = ~~ Z.even x -> odd m = ~~ Z.even y -> zr K (nsign (Z.mul x y)) = (-1) ^+ (n * m).
  Proof.
    move=> H1 H2. rewrite -nsign_expr. congr (zr K _). rewrite /nsign. have -> : Z.even (x * y) = Z.even (Z.of_nat (n * m)) => //.
    by rewrite Z.even_mul even_nat oddM H1 H2 -negb_or negbK.
  Qed.
  Lemma gops_commuting : (nsp st <= max_spaces)%coq_nat -> graded_commuting gopv st (proper st).
  Proof.
    move=> L a b [Va Na] [Vb Nb] C. have OkA : ops_ok st [:: a] by split=> //; constructor. have OkB : ops_ok st [:: b] by split=> //; constructor.
    have [la [Wa ->]] := gop_words OkA. have [lb [Wb ->]] := gop_words OkB.
    rewrite big_distrl [in RHS]big_distrl /= [in RHS](eq_bigr (fun y => \sum_(x <- la) (y.1 *: wp y.2) * (x.1 *: wp x.2))); last by move=> y _; rewrite big_distrr.
    rewrite (exchange_big_dep xpredT) //= scaler_sumr.
    elim: la Wa => [|x la IH] Wa; first by rewrite !big_nil.
    rewrite !big_cons IH; last by move=> y Hy; apply: Wa; right. congr (_ + _).
    rewrite big_distrr /= scaler_sumr. elim: lb Wb {IH} => [|y lb IH] Wb; first by rewrite !big_nil.
    rewrite !big_cons IH; last by move=> z Hz; apply: Wb; right. congr (_ + _).
    have Wx := Wa x (or_introl erefl). have Wy := Wb y (or_introl erefl).
    have Rg o v : from_op o v -> forall z, In z (map (@flat orb) v) -> registered st z.1.2.
    { move=> [H _] z /List.in_map_iff [z' [<- /H [l [/leg_positive [R _] [_ E]]]]] /=. by rewrite E. }
    rewrite /BchWickProofs2.wp !flat_word -!scalerAl -!scalerAr (word_word HL multi_fermions (Rg _ _ Wx) (Rg _ _ Wy) (from_noshare Na Nb C Wx Wy)).
    rewrite !size_map (parity_sign (proj2 Wx) (proj2 Wy)) !scalerA. congr (_ *: _). by rewrite mulrC -mulrA [y.1 * _]mulrC.
  Qed.
  Lemma gcanon_value e : (nsp st <= max_spaces)%coq_nat -> mcanon e -> keysP (List.Forall (proper st)) e -> gopexpr_value st T N orbs phi0 (opexpr_canonicalize st e) = gopexpr_value st T N orbs phi0 e.
  Proof. move=> L Ce Pe. exact: (opexpr_canon_den ch (gops_commuting L) Pe Ce). Qed.

  (** ** Contractions *)
  Hypothesis U : forall s, uniq (orbs s).
  Variables (factor : rational) (minr maxr : Z) (V : lmodType K) (f : {linear A -> V}).
  Hypothesis M1 : (1 <= maxc)%N.
  Hypothesis HD : densities st T.
  Hypothesis Cf : canonical factor.
  Lemma gcontract_made (o : wt_opts) (S : oper -> Prop) n r0 r : wt_maxcumulant o = Z.of_nat maxc -> (nsp st <= max_spaces)%coq_nat -> (forall q, S q -> op_valid st q /\ nonneg_counts st q /\ antisymmetric_tensor T (op_label q)) ->
    (forall q q', S q -> S q' -> never_thrice st q q') -> gonly_ranks st N f n minr maxr -> wf oprod_ltb r0 -> keysP (made_of S n) r0 ->
    contract_expr o st factor r0 minr maxr (Ok r) -> f (expr_value N T orbs phi0 r) = ratK K factor *: f (gopexpr_value st T N orbs phi0 r0).
  Proof.
    move=> Em Ns Vd Dd Hf [_ [C0 _]] Kr. apply: (gexpr_contract ch HL HS M1 HD HN U phi0 Em Cf C0) => x Hx. have [H1 H2] := proj1 (List.Forall_forall _ _) Kr x Hx. split; first exact: (good_gproduct maxc Ns Vd Dd H1).
    move=> w Hw Hs. apply: Hf => //. lia.
  Qed.
  Lemma gcanon_contract (o o' : wt_opts) e n r r' : wt_maxcumulant o = Z.of_nat maxc -> wt_maxcumulant o' = Z.of_nat maxc -> wf oprod_ltb e -> operators_ok st T e -> (forall q q', operators_of e q -> operators_of e q' -> never_thrice st q q') ->
    legs_at_most e n -> gonly_ranks st N f n minr maxr ->
    contract_expr o st factor e minr maxr (Ok r) -> contract_expr o' st factor (opexpr_canonicalize st e) minr maxr (Ok r') -> f (expr_value N T orbs phi0 r') = f (expr_value N T orbs phi0 r).
  Proof.
    move=> Em Em' We Oe De Le Hf C C'. have Ne := proj1 Oe. have Kr := made_expr (fun q (H : operators_of e q) => H) Le.
    have Ke := canon_keys st (@made_perm (operators_of e) n) Kr. have We' := PyOpProofs.canon_wf st _ We.
    rewrite (gcontract_made Em Ne (proj2 Oe) De Hf We Kr C) (gcontract_made Em' Ne (proj2 Oe) De Hf We' Ke C'). congr (_ *: f _).
    apply: (gcanon_value Ne); [by case: We => _ []|exact: good_keys Oe].
  Qed.
  (** Expressions with the same canonical form. *)
  Lemma gsame_canon_contract (o o' : wt_opts) e1 e2 n1 n2 r1 r2 : wt_maxcumulant o = Z.of_nat maxc -> wt_maxcumulant o' = Z.of_nat maxc -> wf oprod_ltb e1 -> wf oprod_ltb e2 -> operators_ok st T e1 -> operators_ok st T e2 ->
    (forall q q', operators_of e1 q -> operators_of e1 q' -> never_thrice st q q') -> (forall q q', operators_of e2 q -> operators_of e2 q' -> never_thrice st q q') ->
    legs_at_most e1 n1 -> legs_at_most e2 n2 -> gonly_ranks st N f n1 minr maxr -> gonly_ranks st N f n2 minr maxr -> opexpr_canonicalize st e1 = opexpr_canonicalize st e2 ->
    contract_expr o st factor e1 minr maxr (Ok r1) -> contract_expr o' st factor e2 minr maxr (Ok r2) -> f (expr_value N T orbs phi0 r1) = f (expr_value N T orbs phi0 r2).
  Proof.
    move=> Em Em' W1 W2 O1 O2 D1 D2 L1 L2 Hf1 Hf2 E C1 C2. have Ne := proj1 O1.
    rewrite (gcontract_made Em Ne (proj2 O1) D1 Hf1 W1 (made_expr (fun q (H : operators_of e1 q) => H) L1) C1).
    rewrite (gcontract_made Em' Ne (proj2 O2) D2 Hf2 W2 (made_expr (fun q (H : operators_of e2 q) => H) L2) C2). congr (_ *: f _).
    rewrite -(gcanon_value Ne _ _ (e := e1)); [|by case: W1 => _ []|exact: good_keys O1].
    rewrite -(gcanon_value Ne _ _ (e := e2)); [|by case: W2 => _ []|exact: good_keys O2]. by rewrite E.
  Qed.
End General.
