(** C77: the results of [contract] for a product and for its adjoint. *)
Set Warnings "-notation-overridden,-ambiguous-paths".
From Coq Require Import ZArith List Lia Permutation.
From mathcomp Require Import all_ssreflect ssralg.
From Verif Require Import Res RationalModel RationalSpec RegistryModel CoreModel OrderProofs AlgebraModel AlgebraSpec AlgebraProofs OperatorModel OperatorSpec OperatorSemProofs AdjointProofs SortSpec SortProofs ScalarSem LadderSpec CanonSpec CanonSemSpec CanonSemProofs WickSearchModel WickSearchSpec WickCombSpec WickCombProofs WickLegSpec WickLegProofs WickEvalModel
  WickMatchProofs WickPairSpec WickProductSpec WickTheoremSpec WickProductProofs WickProductProofs2 WickProductProofs3 WickProductProofs4 WickProductProofs15 WickGeneralSpec WickBlockProofs WickConvProofs WickConvProofs2 WickGenProofs WickGenProofs3 WickGenProofs13 AdjWickSpec AdjWickProofs AdjWickProofs2 AdjWickProofs3 AdjWickProofs4.
Set Implicit Arguments.
Unset Strict Implicit.
Unset Printing Implicit Defensive.
Import GRing.Theory.
Local Open Scope ring_scope.

Section Single.
  Variables (K : fieldType) (A : algType K) (orb : eqType) (st : osi) (cre ann : Z -> orb -> A) (conj : {rmorphism K -> K}) (star : A -> A).
  Hypothesis HL : ladder_relations st cre ann.
  Hypothesis HS : single_reference st.
  Hypothesis S : operator_adjoint cre ann conj star.
  Notation wletter := (bool * (Z * orb))%type.
  Lemma ex_fl (x : wletter) : makes_excitation st (fl x) = ~~ makes_excitation st x.
  Proof. rewrite /makes_excitation /=. by case: (stype st x.2.1) => [[]|]. Qed.
  Theorem star_normal_product w : (forall x : wletter, In x w -> registered st x.2.1) -> star (normal_product st cre ann w) = normal_product st cre ann (adjoint_word w).
  Proof.
    move=> Hw. have Hf : forall x, In x (adjoint_word w) -> registered st x.2.1.
    { apply: reg_all. rewrite adjointE all_rev all_map. exact: all_reg. }
    rewrite -(NP_normal cre ann Hw) -(NP_normal cre ann Hf) adjointE /NP.
    exact: (@npr_star _ _ _ (wlad st cre ann) (makes_excitation st) (wH1 HL HS) conj star (@fl orb) (adj_one S) (adj_mul S) (adj_scale S) (star_wlad st S) ex_fl).
  Qed.
End Single.

Section General.
  Variables (K : fieldType) (A : algType K) (orb : eqType) (st : osi) (cre ann : Z -> orb -> A) (conj : {rmorphism K -> K}) (star : A -> A).
  Hypothesis HL : ladder_relations st cre ann.
  Hypothesis HS : multi_reference st.
  Hypothesis S : operator_adjoint cre ann conj star.
  Variables (T : text -> seq (Z * orb) -> seq (Z * orb) -> bool -> K) (maxc : nat).
  Hypothesis HD : densities st T.
  Hypothesis HH : hermitian_densities conj T st.
  Variable N : seq (bool * (Z * orb)) -> A.
  Hypothesis HN : generalized_normal_product st cre ann T maxc N.
  Theorem star_general w : (forall x, In x w -> registered st x.2.1) -> star (N w) = N (adjoint_word w).
  Proof.
    apply: (star_normal HL HS S (cum_conj maxc HD HH) HN) => u Hu.
    have Hr : forall x, In x (rev u) -> registered st x.2.1 by apply: reg_all; rewrite all_rev; exact: all_reg.
    rewrite -(NGw_N HN Hu) -(NGw_N HN Hr). exact: (alt_reverse _ (NGw_alternating HL HS maxc HD)).
  Qed.
End General.

Section Dual.
  Variables (K : fieldType) (A : algType K) (orb : eqType) (st : osi) (cre ann : Z -> orb -> A) (conj : {rmorphism K -> K}) (star : A -> A).
  Hypothesis HL : ladder_relations st cre ann.
  Hypothesis HS : multi_reference st.
  Hypothesis S : operator_adjoint cre ann conj star.
  Variables (T : text -> seq (Z * orb) -> seq (Z * orb) -> bool -> K) (maxc : nat) (orbs : Z -> seq orb) (phi0 : index -> orb).
  Variable N : seq (bool * (Z * orb)) -> A.
  Hypothesis HN : generalized_normal_product st cre ann T maxc N.
  Hypothesis SN : forall w, (forall x, In x w -> registered st x.2.1) -> star (N w) = N (adjoint_word w).
  Variables (V V' : lmodType K) (f : {linear A -> V}) (f' : {linear A -> V'}) (h : V -> V').
  Hypothesis hD : forall u v, h (u + v) = h u + h v.
  Hypothesis hZ : forall c v, h (c *: v) = conj c *: h v.
  Hypothesis HF : forall w, (forall x, In x w -> registered st x.2.1) -> f' (N (adjoint_word w)) = h (f (N w)).
  Let P a := f' (star a) = h (f a).
  Notation pv := (gproduct_value st T N orbs phi0).
  Notation ev := (gopexpr_value st T N orbs phi0).
  Lemma h0 : h 0 = 0. Proof. by have := hZ 0 0; rewrite !scale0r rmorph0 scale0r. Qed.
  Lemma PD a b : P a -> P b -> P (a + b). Proof. by rewrite /P => Ha Hb; rewrite (adj_add S) !linearD hD Ha Hb. Qed.
  Lemma PZ c a : P a -> P (c *: a). Proof. by rewrite /P => Ha; rewrite (adj_scale S) !linearZ hZ Ha. Qed.
  Lemma P0 : P 0. Proof. by rewrite /P (star0 S) !linear0 h0. Qed.
  Lemma Psum (I : Type) (r : seq I) (F : I -> A) : (forall i, In i r -> P (F i)) -> P (\sum_(i <- r) F i).
  Proof.
    elim: r => [|i r IH] H; first by rewrite big_nil; exact: P0. rewrite big_cons. apply: PD; first by apply: H; left. apply: IH => j Hj. by apply: H; right.
  Qed.
  Lemma PN w : (forall x, In x w -> registered st x.2.1) -> P (N w). Proof. by move=> Hw; rewrite /P SN // HF. Qed.
  Lemma dual_value ops : P (pv ops).
  Proof.
    rewrite /gproduct_value /gop_value scaler_prod. apply: PZ. pose v0 (l : leg) := phi0 (mkI Z0 Z0).
    rewrite (gproduct_terms ops orbs HN phi0 v0). apply: Psum => v _. apply: PZ. rewrite (gprod_conv HL HS) conv_splits /split_sum. apply: Psum => p Hp. apply: PZ.
    have Hr : forall x, In x (wordl p.2) -> registered st x.2.1.
    { move=> x /in_map_iff [y [<- Hy]]. have := Permutation_in y (Permutation_sym (splits_perm Hp)) (List.in_or_app _ _ _ (or_intror Hy)).
      move=> /in_map_iff [l [<- Hl]]. by have [_ [Hs _]] := proj1 (in_product _ _ _) Hl. }
    rewrite (NGw_N HN Hr). exact: PN.
  Qed.
  Lemma dual_expr (e : seq (oprod * rational)) : P (ev e).
  Proof. rewrite /gopexpr_value. elim: e => [|x e IH]; first exact: P0. rewrite /=. apply: PD => //. apply: PZ. exact: dual_value. Qed.
  Lemma dual_ranks bound lo hi : gonly_ranks st N f bound lo hi -> gonly_ranks st N f' bound lo hi.
  Proof.
    move=> Hf w Hw H1 H2. have Hr : forall x, In x (adjoint_word w) -> registered st x.2.1 by apply: reg_all; rewrite adjointE all_rev all_map; exact: all_reg.
    have -> : w = adjoint_word (adjoint_word w) by rewrite !adjointE map_rev revK map_fl.
    have Es : size (adjoint_word w) = size w by rewrite adjointE size_rev size_map.
    rewrite HF // Hf ?h0 ?Es //.
  Qed.
End Dual.
