(** C77: contracting the adjoint product. *)
Set Warnings "-notation-overridden,-ambiguous-paths".
From Coq Require Import ZArith List Lia Permutation.
From mathcomp Require Import all_ssreflect ssralg.
From Verif Require Import Res RationalModel RationalSpec RegistryModel CoreModel OrderProofs AlgebraModel AlgebraSpec AlgebraProofs OperatorModel OperatorSpec AdjointModel OperatorSemSpec OperatorSemProofs AdjointProofs SortSpec SortProofs ScalarSem LadderSpec CanonSpec CanonSemSpec CanonSemProofs WickSearchModel WickSearchSpec WickCombSpec WickLegSpec WickEvalModel
  WickMatchProofs WickPairSpec WickProductSpec WickTheoremSpec WickProductProofs3 WickProductProofs13 WickProductProofs14 WickProductProofs15 WickGeneralSpec WickGenProofs WickGenProofs3 WickGenProofs13 ContractShapeProofs3 AdjWickSpec AdjWickProofs AdjWickProofs2 AdjWickProofs3 AdjWickProofs4 AdjWickProofs5 AdjWickProofs6.
Set Implicit Arguments.
Unset Strict Implicit.
Unset Printing Implicit Defensive.
Import GRing.Theory.
Local Open Scope ring_scope.

Section Core.
  Variables (K : fieldType) (A : algType K) (orb : eqType) (st : osi) (cre ann : Z -> orb -> A) (conj : {rmorphism K -> K}) (star : A -> A).
  Hypothesis ch : [char K] =i pred0.
  Hypothesis HL : ladder_relations st cre ann.
  Hypothesis HS : multi_reference st.
  Hypothesis S : operator_adjoint cre ann conj star.
  Variables (T : text -> seq (Z * orb) -> seq (Z * orb) -> bool -> K) (maxc : nat) (orbs : Z -> seq orb) (phi0 : index -> orb).
  Variable N : seq (bool * (Z * orb)) -> A.
  Hypothesis HN : generalized_normal_product st cre ann T maxc N.
  Hypothesis SN : forall w, (forall x, In x w -> registered st x.2.1) -> star (N w) = N (adjoint_word w).
  Notation pv := (gproduct_value st T N orbs phi0).
  Notation xv := (gopexpr_value st T N orbs phi0).
  Notation ev := (expr_value N T orbs phi0).
  Variables (okP : oprod -> Prop) (okO : wt_opts -> Prop).
  Hypothesis okS : forall ops, okP ops -> ops_ok st ops.
  Hypothesis CP : forall ops (V : lmodType K) (f : {linear A -> V}) minr maxr o factor r, okP ops -> okO o -> gonly_ranks st N f (ops_rank ops) minr maxr ->
    canonical factor -> contract o st factor ops minr maxr (Ok r) -> f (ev r) = ratK K factor *: f (pv ops).
  Hypothesis CE : forall (V : lmodType K) (f : {linear A -> V}) minr maxr o factor e r, canonical factor -> okO o -> mcanon e ->
    (forall x, In x e -> okP x.1 /\ gonly_ranks st N f (ops_rank x.1) minr maxr) ->
    contract_expr o st factor e minr maxr (Ok r) -> f (ev r) = ratK K factor *: f (xv e).
  Hypothesis CK : forall o factor ops minr maxr r, okP ops -> okO o -> canonical factor -> contract o st factor ops minr maxr (Ok r) -> keysP (key_ok st) r.
  Definition hlabels (ops : oprod) : Prop := forall o, In o ops -> hermitian_tensor conj T (op_label o).

  Section Ranks.
    Variables (V V' : lmodType K) (f : {linear A -> V}) (f' : {linear A -> V'}) (h : V -> V').
    Hypothesis hD : forall u v, h (u + v) = h u + h v.
    Hypothesis hZ : forall c v, h (c *: v) = conj c *: h v.
    Hypothesis HF : forall w, (forall x, In x w -> registered st x.2.1) -> f' (N (adjoint_word w)) = h (f (N w)).
    Theorem core_ranks ops ops' minr maxr o o' factor r r' : okP ops -> okP ops' -> okO o -> okO o' -> hlabels ops -> canonical factor ->
      gonly_ranks st N f (ops_rank ops) minr maxr -> oprod_adjoint st ops = Ok ops' ->
      contract o st factor ops minr maxr (Ok r) -> contract o' st factor ops' minr maxr (Ok r') -> f' (ev r') = h (f (ev r)).
    Proof.
      move=> P P' Oo Oo' Hh Cf Hf E C C'. have Hok := okS P. have E' := prodadj_eq _ _ _ Hok E.
      have Hf' : gonly_ranks st N f' (ops_rank ops') minr maxr by rewrite E' (prodadj_rank _ _ Hok); exact: dual_ranks hZ HF _ _ _ Hf.
      rewrite (CP P Oo Hf Cf C) (CP P' Oo' Hf' Cf C') (prod_star S orbs phi0 SN Hok Hh E) (dual_value HL HS S orbs phi0 HN SN hD hZ HF) hZ. by rewrite conj_rat.
    Qed.
    Theorem core_expr e e' minr maxr o o' factor r r' : (nsp st <= max_spaces)%coq_nat -> mcanon e -> okO o -> okO o' -> canonical factor ->
      (forall x, In x e -> okP x.1 /\ okP (prodadj st x.1) /\ hlabels x.1 /\ gonly_ranks st N f (ops_rank x.1) minr maxr) -> opexpr_adjoint st e = Ok e' ->
      contract_expr o st factor e minr maxr (Ok r) -> contract_expr o' st factor e' minr maxr (Ok r') -> f' (ev r') = h (f (ev r)).
    Proof.
      move=> Hn Ce Oo Oo' Cf H E C C'.
      have Vv : opexpr_valid st e. { apply/List.Forall_forall => x /H [/okS P _]. exact: ops_ok_valid. }
      have [Ce' Hk] := opexpr_adjoint_keys _ _ _ Hn Vv Ce E.
      rewrite (CE (f := f) Cf Oo Ce _ C); last by move=> x /H [P [_ [_ R]]].
      rewrite (CE (f := f') Cf Oo' Ce' _ C'); last first.
      { move=> x' /Hk [x [Hx ->]]. have [P [P' [_ R]]] := H x Hx. split=> //. rewrite (prodadj_rank _ _ (okS P)). exact: dual_ranks hZ HF _ _ _ R. }
      rewrite (expr_star S orbs phi0 SN ch Hn Ce _ E); last by move=> x /H [P [_ [Hh _]]]; split=> //; exact: okS.
      by rewrite (dual_expr HL HS S orbs phi0 HN SN hD hZ HF) hZ conj_rat.
    Qed.
  End Ranks.
  Lemma full_ranks ops minr maxr : (minr <= 0)%Z -> (ops_rank ops <= maxr)%Z -> gonly_ranks st N [linear of idfun : A -> A] (ops_rank ops) minr maxr.
  Proof. exact: gonly_full. Qed.
  Lemma SN' w : (forall x, In x w -> registered st x.2.1) -> idfun (N (adjoint_word w)) = star (idfun (N w)). Proof. by move=> Hw; rewrite /= SN. Qed.
  Theorem core_product ops ops' minr maxr o o' factor r r' : okP ops -> okP ops' -> okO o -> okO o' -> hlabels ops -> canonical factor ->
    (minr <= 0)%Z -> (ops_rank ops <= maxr)%Z -> oprod_adjoint st ops = Ok ops' ->
    contract o st factor ops minr maxr (Ok r) -> contract o' st factor ops' minr maxr (Ok r') -> ev r' = star (ev r).
  Proof.
    move=> P P' Oo Oo' Hh Cf H1 H2 E C C'.
    exact: (core_ranks (f := [linear of idfun : A -> A]) (f' := [linear of idfun : A -> A]) (h := star) (adj_add S) (adj_scale S) SN' P P' Oo Oo' Hh Cf (full_ranks H1 H2) E C C').
  Qed.
  Theorem core_adjoint ops ops' minr maxr o o' factor r r' : (forall label, flag_conjugates conj T label) -> okP ops -> okP ops' -> okO o -> okO o' -> hlabels ops -> canonical factor ->
    (minr <= 0)%Z -> (ops_rank ops <= maxr)%Z -> oprod_adjoint st ops = Ok ops' ->
    contract o st factor ops minr maxr (Ok r) -> contract o' st factor ops' minr maxr (Ok r') -> ev r' = ev (expr_adjoint r).
  Proof.
    move=> HC P P' Oo Oo' Hh Cf H1 H2 E C C'. rewrite (core_product P P' Oo Oo' Hh Cf H1 H2 E C C').
    symmetry. apply: (expr_adjoint_value ch S orbs phi0 SN HC); last exact: CK C. by have [_ [W _]] := contract_wf _ _ _ _ _ _ _ (okS P) Cf C.
  Qed.
  (** Expectation values *)
  Variable f : {linear A -> K^o}.
  Hypothesis FN : forall w, (forall x, In x w -> registered st x.2.1) -> f (N w) = no_operators K w.
  Hypothesis CX : forall ops o factor r, okP ops -> okO o -> canonical factor -> contract o st factor ops 0 0 (Ok r) ->
    expr_value (no_operators K (orb := orb)) T orbs phi0 r = ratK K factor * f (pv ops).
  Theorem core_expectation ops ops' o o' factor r r' : okP ops -> okP ops' -> okO o -> okO o' -> hlabels ops -> canonical factor -> oprod_adjoint st ops = Ok ops' ->
    contract o st factor ops 0 0 (Ok r) -> contract o' st factor ops' 0 0 (Ok r') ->
    expr_value (no_operators K (orb := orb)) T orbs phi0 r' = conj (expr_value (no_operators K (orb := orb)) T orbs phi0 r : K).
  Proof.
    move=> P P' Oo Oo' Hh Cf E C C'. rewrite (CX P Oo Cf C) (CX P' Oo' Cf C') (prod_star S orbs phi0 SN (okS P) Hh E).
    have HF w : (forall x, In x w -> registered st x.2.1) -> f (N (adjoint_word w)) = conj (f (N w) : K).
    { move=> Hw. rewrite !FN //; last by apply: reg_all; rewrite adjointE all_rev all_map; exact: all_reg.
      rewrite adjointE. case: w Hw => [|x w] _; first by rewrite /= rmorph1. rewrite /= rev_cons. by case: (rev _) => [|y u]; rewrite /= rmorph0. }
    have := @dual_value _ _ _ _ _ _ conj star HL HS S T maxc orbs phi0 N HN SN [lmodType K of K^o] [lmodType K of K^o] f f conj (rmorphD conj) (rmorphM conj) HF ops.
    move=> ->. by rewrite rmorphM conj_rat.
  Qed.
End Core.
