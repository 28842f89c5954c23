(** C77: single reference and general spaces; the Fock space. *)
Set Warnings "-notation-overridden,-ambiguous-paths".
From Coq Require Import ZArith List Lia Permutation.
From mathcomp Require Import all_ssreflect ssralg matrix.
From Verif Require Import Res RationalModel RationalSpec RegistryModel CoreModel OrderProofs AlgebraModel AlgebraSpec AlgebraProofs OperatorModel OperatorSpec AdjointModel OperatorSemSpec OperatorSemProofs AdjointProofs SortSpec SortProofs ScalarSem LadderSpec CanonSpec CanonSemSpec CanonSemProofs WickSearchModel WickSearchSpec WickCombSpec WickLegSpec WickEvalModel
  WickMatchProofs WickPairSpec WickProductSpec WickTheoremSpec WickProductProofs3 WickProductProofs13 WickProductProofs14 WickProductProofs15 WickGeneralSpec WickStateSpec WickGenProofs WickGenProofs3 WickGenProofs13 WickFockProofs WickFockProofs2 ContractShapeProofs3 AdjWickSpec AdjWickProofs AdjWickProofs2 AdjWickProofs3 AdjWickProofs4 AdjWickProofs5 AdjWickProofs6 AdjWickProofs7.
Set Implicit Arguments.
Unset Strict Implicit.
Unset Printing Implicit Defensive.
Import GRing.Theory.
Local Open Scope ring_scope.

Section SR.
  Variables (K : fieldType) (A : algType K) (orb : eqType) (st : osi) (cre ann : Z -> orb -> A) (conj : {rmorphism K -> K}) (star : A -> A).
  Hypothesis ch : [char K] =i pred0.
  Hypothesis HL : ladder_relations st cre ann.
  Hypothesis HS : single_reference st.
  Hypothesis S : operator_adjoint cre ann conj star.
  Variables (T : text -> seq (Z * orb) -> seq (Z * orb) -> bool -> K) (orbs : Z -> seq orb) (phi0 : index -> orb).
  Hypothesis U : forall s, uniq (orbs s).
  Notation N := (normal_product st cre ann).
  Notation ev := (expr_value N T orbs phi0).
  Lemma prod_ok_adj ops ops' : product_ok st T ops -> oprod_adjoint st ops = Ok ops' -> product_ok st T ops'.
  Proof.
    move=> [H1 [H2 H3]] E. rewrite (prodadj_eq _ _ _ H1 E). split; first exact: prodadj_ops_ok. split; first exact: prodadj_double.
    move=> o Ho. have [q [Hq ->]] := prodadj_in _ _ _ H1 Ho. exact: H3.
  Qed.
  Lemma prod_ok_adj' ops : product_ok st T ops -> product_ok st T (prodadj st ops).
  Proof. move=> P. apply: (prod_ok_adj P). by have [E _] := oprod_adjoint_ok st ops (proj1 (proj1 P)) (ops_ok_valid _ _ (proj1 P)). Qed.
  Let CP ops (V : lmodType K) (f : {linear A -> V}) minr maxr o factor r : product_ok st T ops -> True -> gonly_ranks st N f (ops_rank ops) minr maxr ->
    canonical factor -> contract o st factor ops minr maxr (Ok r) -> f (ev r) = ratK K factor *: f (gproduct_value st T N orbs phi0 ops).
  Proof. move=> P _ Hf Cf C. exact: (contract_product ch HL HS U phi0 P Hf Cf C). Qed.
  Let CE (V : lmodType K) (f : {linear A -> V}) minr maxr o factor e r : canonical factor -> True -> mcanon e ->
    (forall x, In x e -> product_ok st T x.1 /\ gonly_ranks st N f (ops_rank x.1) minr maxr) ->
    contract_expr o st factor e minr maxr (Ok r) -> f (ev r) = ratK K factor *: f (gopexpr_value st T N orbs phi0 e).
  Proof. move=> Cf _ Ce H C. exact: (@expr_contract _ _ _ _ _ _ ch HL HS T orbs U phi0 V f minr maxr o factor e r Cf Ce H C). Qed.
  Let CK o factor ops minr maxr r : product_ok st T ops -> True -> canonical factor -> contract o st factor ops minr maxr (Ok r) -> keysP (key_ok st) r.
  Proof. move=> P _ Cf C. exact: (contract_keys ch HL HS U phi0 P Cf C). Qed.
  Let HM := single_multi HS.
  Let HN := determinant_normal HL HS T 1.
  Let SN := star_normal_product HL HS S.
  Let okS ops : product_ok st T ops -> ops_ok st ops. Proof. by case. Qed.
  Theorem sr_ranks (V V' : lmodType K) (f : {linear A -> V}) (f' : {linear A -> V'}) (h : V -> V') ops ops' minr maxr o o' factor r r' :
    (forall u v, h (u + v) = h u + h v) -> (forall c v, h (c *: v) = conj c *: h v) ->
    (forall w, (forall x, In x w -> registered st x.2.1) -> f' (N (adjoint_word w)) = h (f (N w))) ->
    product_ok st T ops -> (forall op, In op ops -> hermitian_tensor conj T (op_label op)) -> canonical factor ->
    only_ranks st cre ann f (ops_rank ops) minr maxr -> oprod_adjoint st ops = Ok ops' ->
    contract o st factor ops minr maxr (Ok r) -> contract o' st factor ops' minr maxr (Ok r') -> f' (ev r') = h (f (ev r)).
  Proof.
    move=> hD hZ HF P Hh Cf Hf E C C'. have Q := core_ranks (okP := product_ok st T) (okO := fun _ => True) HL HM S HN SN okS CP hD hZ HF P (prod_ok_adj P E) I I Hh Cf Hf E C C'. exact: Q.
  Qed.
  Theorem sr_expr (V V' : lmodType K) (f : {linear A -> V}) (f' : {linear A -> V'}) (h : V -> V') e e' minr maxr o o' factor r r' :
    (forall u v, h (u + v) = h u + h v) -> (forall c v, h (c *: v) = conj c *: h v) ->
    (forall w, (forall x, In x w -> registered st x.2.1) -> f' (N (adjoint_word w)) = h (f (N w))) ->
    (nsp st <= max_spaces)%coq_nat -> mcanon e -> canonical factor ->
    (forall x, In x e -> product_ok st T x.1 /\ (forall op, In op x.1 -> hermitian_tensor conj T (op_label op)) /\ only_ranks st cre ann f (ops_rank x.1) minr maxr) ->
    opexpr_adjoint st e = Ok e' ->
    contract_expr o st factor e minr maxr (Ok r) -> contract_expr o' st factor e' minr maxr (Ok r') -> f' (ev r') = h (f (ev r)).
  Proof.
    move=> hD hZ HF Hn Ce Cf H E. apply: (core_expr (okP := product_ok st T) (okO := fun _ => True) ch HL HM S HN SN okS CE hD hZ HF Hn Ce I I Cf _ E).
    move=> x /H [P [Hh R]]. split=> //. split=> //. exact: prod_ok_adj'.
  Qed.
  Theorem sr_product ops ops' minr maxr o o' factor r r' : product_ok st T ops -> (forall op, In op ops -> hermitian_tensor conj T (op_label op)) -> canonical factor ->
    (minr <= 0)%Z -> (ops_rank ops <= maxr)%Z -> oprod_adjoint st ops = Ok ops' ->
    contract o st factor ops minr maxr (Ok r) -> contract o' st factor ops' minr maxr (Ok r') -> ev r' = star (ev r).
  Proof. move=> P Hh Cf H1 H2 E. exact: (core_product (okP := product_ok st T) (okO := fun _ => True) HL HM S HN SN okS CP P (prod_ok_adj P E) I I Hh Cf H1 H2 E). Qed.
  Theorem sr_adjoint ops ops' minr maxr o o' factor r r' : (forall label, flag_conjugates conj T label) -> product_ok st T ops -> (forall op, In op ops -> hermitian_tensor conj T (op_label op)) -> canonical factor ->
    (minr <= 0)%Z -> (ops_rank ops <= maxr)%Z -> oprod_adjoint st ops = Ok ops' ->
    contract o st factor ops minr maxr (Ok r) -> contract o' st factor ops' minr maxr (Ok r') -> ev r' = ev (expr_adjoint r).
  Proof. move=> HC P Hh Cf H1 H2 E. exact: (core_adjoint (okP := product_ok st T) (okO := fun _ => True) ch HL HM S HN SN okS CP CK HC P (prod_ok_adj P E) I I Hh Cf H1 H2 E). Qed.
  Theorem sr_expectation (f : {linear A -> K^o}) ops ops' o o' factor r r' : reference_state st cre ann f -> product_ok st T ops -> (forall op, In op ops -> hermitian_tensor conj T (op_label op)) -> canonical factor ->
    oprod_adjoint st ops = Ok ops' -> contract o st factor ops 0 0 (Ok r) -> contract o' st factor ops' 0 0 (Ok r') ->
    expr_value (no_operators K (orb := orb)) T orbs phi0 r' = conj (expr_value (no_operators K (orb := orb)) T orbs phi0 r : K).
  Proof.
    move=> Rf P Hh Cf E. have FN w : (forall x, In x w -> registered st x.2.1) -> f (N w) = no_operators K w by move=> Hw; exact: (ref_normal Rf).
    have CX ops0 o0 factor0 r0 : product_ok st T ops0 -> True -> canonical factor0 -> contract o0 st factor0 ops0 0 0 (Ok r0) ->
      expr_value (no_operators K (orb := orb)) T orbs phi0 r0 = ratK K factor0 * f (gproduct_value st T N orbs phi0 ops0).
    { move=> P0 _ C0 H0. exact: (expectation ch HL HS U phi0 Rf P0 C0 H0). }
    exact: (core_expectation (okP := product_ok st T) (okO := fun _ => True) HL HM S HN SN okS FN CX P (prod_ok_adj P E) I I Hh Cf E).
  Qed.
  Theorem sr_real (f : {linear A -> K^o}) ops o factor r : reference_state st cre ann f -> product_ok st T ops -> (forall op, In op ops -> hermitian_tensor conj T (op_label op)) -> canonical factor ->
    oprod_adjoint st ops = Ok ops -> contract o st factor ops 0 0 (Ok r) ->
    conj (expr_value (no_operators K (orb := orb)) T orbs phi0 r : K) = expr_value (no_operators K (orb := orb)) T orbs phi0 r.
  Proof. move=> Rf P Hh Cf E C. by rewrite -(sr_expectation Rf P Hh Cf E C C). Qed.
End SR.

Section GR.
  Variables (K : fieldType) (A : algType K) (orb : eqType) (st : osi) (cre ann : Z -> orb -> A) (conj : {rmorphism K -> K}) (star : A -> A).
  Hypothesis ch : [char K] =i pred0.
  Hypothesis HL : ladder_relations st cre ann.
  Hypothesis HS : multi_reference st.
  Hypothesis S : operator_adjoint cre ann conj star.
  Variables (T : text -> seq (Z * orb) -> seq (Z * orb) -> bool -> K) (maxc : nat) (orbs : Z -> seq orb) (phi0 : index -> orb).
  Hypothesis U : forall s, uniq (orbs s).
  Hypothesis M1 : (1 <= maxc)%N.
  Hypothesis HD : densities st T.
  Hypothesis HH : hermitian_densities conj T st.
  Variable N : seq (bool * (Z * orb)) -> A.
  Hypothesis HN : generalized_normal_product st cre ann T maxc N.
  Notation ev := (expr_value N T orbs phi0).
  Notation okO := (fun o => wt_maxcumulant o = Z.of_nat maxc).
  Notation okP := (gproduct_ok st T maxc).
  Lemma gprod_ok_adj ops ops' : okP ops -> no_triple st maxc ops' -> oprod_adjoint st ops = Ok ops' -> okP ops'.
  Proof.
    move=> [H1 [H2 H3]] H2' E. split; first by rewrite (prodadj_eq _ _ _ H1 E); exact: prodadj_ops_ok. split=> //.
    move=> o. rewrite (prodadj_eq _ _ _ H1 E) => Ho. have [q [Hq ->]] := prodadj_in _ _ _ H1 Ho. exact: H3.
  Qed.
  Let CP ops (V : lmodType K) (f : {linear A -> V}) minr maxr o factor r : okP ops -> okO o -> gonly_ranks st N f (ops_rank ops) minr maxr ->
    canonical factor -> contract o st factor ops minr maxr (Ok r) -> f (ev r) = ratK K factor *: f (gproduct_value st T N orbs phi0 ops).
  Proof. move=> P Em Hf Cf C. exact: (proj2 (gcontract_product ch HL HS M1 HD HN U phi0 Em P Hf Cf C)). Qed.
  Let CE (V : lmodType K) (f : {linear A -> V}) minr maxr o factor e r : canonical factor -> okO o -> mcanon e ->
    (forall x, In x e -> okP x.1 /\ gonly_ranks st N f (ops_rank x.1) minr maxr) ->
    contract_expr o st factor e minr maxr (Ok r) -> f (ev r) = ratK K factor *: f (gopexpr_value st T N orbs phi0 e).
  Proof. move=> Cf Em Ce H C. exact: (gexpr_contract ch HL HS M1 HD HN U phi0 Em Cf Ce H C). Qed.
  Let CK o factor ops minr maxr r : okP ops -> okO o -> canonical factor -> contract o st factor ops minr maxr (Ok r) -> keysP (key_ok st) r.
  Proof.
    move=> P Em Cf C. pose z : {linear A -> A} := [linear of (\0 : A -> A)]. have Z0 : gonly_ranks st N z (ops_rank ops) minr maxr by [].
    have [Q _] := gcontract_product ch HL HS M1 HD HN U phi0 Em (f := z) P Z0 Cf C. exact: Q.
  Qed.
  Let SN := star_general HL HS S HD HH HN.
  Let okS ops : okP ops -> ops_ok st ops. Proof. by case. Qed.
  Theorem gr_ranks (V V' : lmodType K) (f : {linear A -> V}) (f' : {linear A -> V'}) (h : V -> V') ops ops' minr maxr o o' factor r r' :
    (forall u v, h (u + v) = h u + h v) -> (forall c v, h (c *: v) = conj c *: h v) ->
    (forall w, (forall x, In x w -> registered st x.2.1) -> f' (N (adjoint_word w)) = h (f (N w))) ->
    okP ops -> no_triple st maxc ops' -> okO o -> okO o' -> (forall op, In op ops -> hermitian_tensor conj T (op_label op)) -> canonical factor ->
    gonly_ranks st N f (ops_rank ops) minr maxr -> oprod_adjoint st ops = Ok ops' ->
    contract o st factor ops minr maxr (Ok r) -> contract o' st factor ops' minr maxr (Ok r') -> f' (ev r') = h (f (ev r)).
  Proof.
    move=> hD hZ HF P Nt Oo Oo' Hh Cf Hf E. exact: (core_ranks (okP := okP) (okO := okO) HL HS S HN SN okS CP hD hZ HF P (gprod_ok_adj P Nt E) Oo Oo' Hh Cf Hf E).
  Qed.
  Theorem gr_expr (V V' : lmodType K) (f : {linear A -> V}) (f' : {linear A -> V'}) (h : V -> V') e e' minr maxr o o' factor r r' :
    (forall u v, h (u + v) = h u + h v) -> (forall c v, h (c *: v) = conj c *: h v) ->
    (forall w, (forall x, In x w -> registered st x.2.1) -> f' (N (adjoint_word w)) = h (f (N w))) ->
    (nsp st <= max_spaces)%coq_nat -> mcanon e -> okO o -> okO o' -> canonical factor ->
    (forall x, In x e -> okP x.1 /\ (forall p, oprod_adjoint st x.1 = Ok p -> no_triple st maxc p) /\ (forall op, In op x.1 -> hermitian_tensor conj T (op_label op)) /\ gonly_ranks st N f (ops_rank x.1) minr maxr) ->
    opexpr_adjoint st e = Ok e' ->
    contract_expr o st factor e minr maxr (Ok r) -> contract_expr o' st factor e' minr maxr (Ok r') -> f' (ev r') = h (f (ev r)).
  Proof.
    move=> hD hZ HF Hn Ce Oo Oo' Cf H E. apply: (core_expr (okP := okP) (okO := okO) ch HL HS S HN SN okS CE hD hZ HF Hn Ce Oo Oo' Cf _ E).
    move=> x /H [P [Nt [Hh R]]]. split=> //. split=> //. have [Ea _] := oprod_adjoint_ok st x.1 Hn (ops_ok_valid _ _ (proj1 P)). exact: (gprod_ok_adj P (Nt _ Ea) Ea).
  Qed.
  Theorem gr_product ops ops' minr maxr o o' factor r r' : okP ops -> no_triple st maxc ops' -> okO o -> okO o' -> (forall op, In op ops -> hermitian_tensor conj T (op_label op)) -> canonical factor ->
    (minr <= 0)%Z -> (ops_rank ops <= maxr)%Z -> oprod_adjoint st ops = Ok ops' ->
    contract o st factor ops minr maxr (Ok r) -> contract o' st factor ops' minr maxr (Ok r') -> ev r' = star (ev r).
  Proof. move=> P Nt Oo Oo' Hh Cf H1 H2 E. exact: (core_product (okP := okP) (okO := okO) HL HS S HN SN okS CP P (gprod_ok_adj P Nt E) Oo Oo' Hh Cf H1 H2 E). Qed.
  Theorem gr_adjoint ops ops' minr maxr o o' factor r r' : (forall label, flag_conjugates conj T label) -> okP ops -> no_triple st maxc ops' -> okO o -> okO o' -> (forall op, In op ops -> hermitian_tensor conj T (op_label op)) -> canonical factor ->
    (minr <= 0)%Z -> (ops_rank ops <= maxr)%Z -> oprod_adjoint st ops = Ok ops' ->
    contract o st factor ops minr maxr (Ok r) -> contract o' st factor ops' minr maxr (Ok r') -> ev r' = ev (expr_adjoint r).
  Proof. move=> HC P Nt Oo Oo' Hh Cf H1 H2 E. exact: (core_adjoint (okP := okP) (okO := okO) ch HL HS S HN SN okS CP CK HC P (gprod_ok_adj P Nt E) Oo Oo' Hh Cf H1 H2 E). Qed.
  Theorem gr_expectation (f : {linear A -> K^o}) ops ops' o o' factor r r' : correlated_state st cre ann T maxc f -> okP ops -> no_triple st maxc ops' -> okO o -> okO o' -> (forall op, In op ops -> hermitian_tensor conj T (op_label op)) -> canonical factor ->
    oprod_adjoint st ops = Ok ops' -> contract o st factor ops 0 0 (Ok r) -> contract o' st factor ops' 0 0 (Ok r') ->
    expr_value (no_operators K (orb := orb)) T orbs phi0 r' = conj (expr_value (no_operators K (orb := orb)) T orbs phi0 r : K).
  Proof.
    move=> Rf P Nt Oo Oo' Hh Cf E. have FN w : (forall x, In x w -> registered st x.2.1) -> f (N w) = no_operators K w by move=> Hw; exact: (cor_normal HN Rf).
    have CX ops0 o0 factor0 r0 : okP ops0 -> okO o0 -> canonical factor0 -> contract o0 st factor0 ops0 0 0 (Ok r0) ->
      expr_value (no_operators K (orb := orb)) T orbs phi0 r0 = ratK K factor0 * f (gproduct_value st T N orbs phi0 ops0).
    { move=> P0 Em C0 H0. exact: (gexpectation ch HL HS M1 HD HN U phi0 Em Rf P0 C0 H0). }
    exact: (core_expectation (okP := okP) (okO := okO) HL HS S HN SN okS FN CX P (gprod_ok_adj P Nt E) Oo Oo' Hh Cf E).
  Qed.
  Theorem gr_real (f : {linear A -> K^o}) ops o factor r : correlated_state st cre ann T maxc f -> okP ops -> okO o -> (forall op, In op ops -> hermitian_tensor conj T (op_label op)) -> canonical factor ->
    oprod_adjoint st ops = Ok ops -> contract o st factor ops 0 0 (Ok r) ->
    conj (expr_value (no_operators K (orb := orb)) T orbs phi0 r : K) = expr_value (no_operators K (orb := orb)) T orbs phi0 r.
  Proof. move=> Rf P Oo Hh Cf E C. by rewrite -(gr_expectation Rf P (proj1 (proj2 P)) Oo Oo Hh Cf E C C). Qed.
End GR.

(** ** The Fock space *)
Section Fock.
  Variables (K : fieldType) (M : finType) (fdim : nat) (fdimE : fdim.+1 = #|{: {ffun M -> bool}}|) (conj : {rmorphism K -> K}).
  Notation fock := (fock K fdimE).
  Notation state := (state fdimE).
  Lemma conj_fsign (p : M) (t : {ffun M -> bool}) : conj (fsign K p t) = fsign K p t.
  Proof. rewrite /fsign rmorph_prod. apply: eq_bigr => q _. by case: (t q); rewrite ?rmorphN rmorph1. Qed.
  Lemma fock_adjoint b p : (map_mx conj (fock b p))^T = fock (~~ b) p.
  Proof.
    apply/matrixP => i j. rewrite !mxE rmorphM rmorph_nat conj_fsign.
    have E : (state i p == ~~ b) && (state j == flip p (state i)) = (state j p == ~~ ~~ b) && (state i == flip p (state j)).
    { apply/andP/andP => -[/eqP E1 /eqP E2]; rewrite ?negbK in E1 *.
      - by rewrite E2 flipK eqxx ffunE eqxx E1 negbK eqxx.
      - by rewrite E2 flipK eqxx ffunE eqxx E1 eqxx. }
    rewrite E. case H: (_ && _); last by rewrite !mul0r. rewrite !mul1r. case/andP: H => _ /eqP ->. rewrite fsign_flip.
    by rewrite /before ltnn mul1r.
  Qed.
End Fock.
Lemma fock_operator_adjoint (K : fieldType) (st : osi) (orb : finType) d (dE : d.+1 = #|{: {ffun [finType of 'I_(Z.to_nat (num_spaces st)).+1 * orb] -> bool}}|) (conj : {rmorphism K -> K}) :
  operator_adjoint (fock_cre K dE) (fock_ann K dE) conj (fun X : 'M[K]_(d.+1) => (map_mx conj X)^T).
Proof.
  split.
  - by move=> x y; rewrite map_mxD linearD.
  - by move=> x y; rewrite -!mulmxE map_mxM trmx_mul.
  - by rewrite map_mx1 trmx1.
  - by move=> c x; rewrite map_mxZ linearZ.
  - by move=> s p; rewrite /fock_cre /fock_ann fock_adjoint.
  - by move=> s p; rewrite /fock_cre /fock_ann fock_adjoint.
Qed.
