(** C75: the ambit statements compute the product; with rank 0, its expectation value (as PipeProofs6.v and PipeProofs7.v). *)
Set Warnings "-notation-overridden,-ambiguous-paths".
From Coq Require Import ZArith QArith Qabs List Bool Ascii String Lia Permutation Sorted.
From mathcomp Require Import all_ssreflect ssralg order ssrnum.
From Verif Require Import Res RegistryModel RegistryProofs CoreModel RationalModel RationalSpec RationalProofs OrderProofs SortProofs OperatorModel DecModel TextModel TextSpec TextProofs ScalarSem AlgebraModel AlgebraSpec EquationModel EquationSpec EquationProofs EquationProofs2 EinsumSpec EinsumProofs EinsumProofs2
  CanonSpec CanonSemSpec WickProductProofs14 WickSearchModel WickSearchSpec WickEvalModel WickLinearProofs ContractShapeSpec ContractShapeProofs2 ContractShapeProofs3 DecimalModel DecimalSpec DecimalProofs2 PipeSpec PipeProofs PipeProofs2 PipeProofs3 PipeProofs4 PipeProofs5 PipeProofs6
  LadderSpec WickProductSpec WickPairSpec WickTheoremSpec WickProductProofs15 WickGeneralSpec WickGenProofs13 PipeProofs7 EqTextModel EqTextSpec EqTextProofs AmbitSpec AmbitPipeSpec AmbitPipeProofs AmbitPipeProofs2.
Set Implicit Arguments.
Unset Strict Implicit.
Unset Printing Implicit Defensive.
Import GRing.Theory Order.Theory Num.Theory.
Local Open Scope ring_scope.
Delimit Scope Z_scope with Z.
Delimit Scope Q_scope with Q.

Section Results.
  Variables (K : fieldType) (T : text -> seq (Z * nat) -> seq (Z * nat) -> bool -> K).
  Variables (dim : Z -> nat) (st : osi) (tens : text -> text -> array K).
  Lemma ambit_ready_expr o factor e minr maxr r : (forall y, In y e -> ambit_product st y.1) -> contract_expr o st factor e minr maxr (Ok r) -> program_data dim st tens T r ->
    forall x, In x r -> ambit_ready T dim st tens ambit_factor x.
  Proof.
    move=> He C Hd x Hx. have Hok : List.Forall (fun y => ops_ok st y.1) e by apply/List.Forall_forall => y /He [].
    have [y [Hy Sh]] := proj1 (Forall_forall _ _) (contract_expr_shape o st factor e minr maxr r Hok C) x Hx. have [_ [Ne Po]] := He y Hy.
    exists y.1, (wt_maxcumulant o), minr, maxr. do 3 (split=> //). split; first exact: fixed_plain. by move=> d; apply: Hd.
  Qed.
  Lemma ambit_ready_product o factor ops minr maxr r : ambit_product st ops -> contract o st factor ops minr maxr (Ok r) -> program_data dim st tens T r ->
    forall x, In x r -> ambit_ready T dim st tens ambit_factor x /\ contraction_of st (wt_maxcumulant o) ops minr maxr x.1.
  Proof.
    move=> [Hok [Ne Po]] C Hd x Hx. have Sh := proj1 (Forall_forall _ _) (contract_shape o st factor ops minr maxr Hok r C) x Hx. split=> //.
    exists ops, (wt_maxcumulant o), minr, maxr. do 3 (split=> //). split; first exact: fixed_plain. by move=> d; apply: Hd.
  Qed.
  Lemma ambit_exact_factor (number : text -> K) c : [char K] =i pred0 -> reads_numbers6 number -> canonical c -> short6 c -> number (ambit_factor c) = ratK K c.
  Proof.
    move=> ch Hn [Hd _] [z [E B]]. have [y [Ry Ey]] := decimal_exact 6 c z Hd E B. rewrite (Hn _ _ Ry) ratK_q //; last lia. exact: qK_eq.
  Qed.
End Results.

Section Product.
  Variables (K : fieldType) (st : osi) (T : text -> seq (Z * nat) -> seq (Z * nat) -> bool -> K) (dim : Z -> nat) (dimc : ascii -> nat) (phi0 : index -> nat).
  Variables (tens : text -> text -> array K) (number : text -> K) (label : text).
  Hypothesis ch : [char K] =i pred0.
  Hypothesis PR : ambit_registry st.
  Hypothesis Dm : dimensions dim dimc st.
  Hypothesis Pl : plain_name label.
  Hypothesis Hn : reads_numbers6 number.
  Let orbs (s : Z) : seq nat := seq.iota 0 (dim s).
  Lemma ambit_exact_value (V : lmodType K) (W : seq (bool * (Z * nat)) -> V) r prog v : (forall x, In x r -> ambit_ready T dim st tens ambit_factor x) -> mcanon r -> (forall x, In x r -> short6 x.2) ->
    generates_ambit ambit_factor st label r prog -> ambit_run dim dimc st tens number label prog v ->
    \sum_(kp <- prog) array_operator W dim (key_upper st kp.1) (key_lower st kp.1) (v kp.1 (key_name label kp.1)) = expr_value W T orbs phi0 r.
  Proof.
    move=> Rr Cr Sr Gp Rv. case: PR => R al. rewrite -(ambit_program_value W phi0 R al Dm Pl Rr Gp Rv) /expr_value rsum_big. apply: big_in => x Hx. congr (_ *: _). apply: ambit_exact_factor => //; last exact: Sr.
    exact: (proj1 (List.Forall_forall _ _) Cr).
  Qed.
End Product.
Section Product.
  Variables (K : fieldType) (A : algType K) (orb : eqType) (orbital : Z -> nat -> orb) (st : osi) (cre ann : Z -> orb -> A) (T : text -> seq (Z * orb) -> seq (Z * orb) -> bool -> K) (dim : Z -> nat) (dimc : ascii -> nat) (phi0 : index -> orb).
  Variables (tens : text -> text -> array K) (number : text -> K) (label : text).
  Hypothesis ch : [char K] =i pred0.
  Hypothesis HL : ladder_relations st cre ann.
  Hypothesis PR : ambit_registry st.
  Hypothesis Dm : dimensions dim dimc st.
  Hypothesis Pl : plain_name label.
  Hypothesis Hn : reads_numbers6 number.
  Let orbs (s : Z) : seq orb := all_orbitals orbital dim s.
  Hypothesis U : forall s, uniq (orbs s).
  Variables (o : wt_opts) (factor : rational) (minr maxr : Z) (r : expression) (prog : seq (text * seq text)) (v : text -> memory K).
  Hypothesis Cf : canonical factor.
  Hypothesis Hd : program_data dim st tens (elements_at orbital T) r.
  Hypothesis Sr : forall x, In x r -> short6 x.2.
  Hypothesis Gp : generates_ambit ambit_factor st label r prog.
  Hypothesis Rv : ambit_run dim dimc st tens number label prog v.
  Variables (e : opexpr).
  Hypothesis Ce : mcanon e.
  Hypothesis Hp : forall x, In x e -> ambit_product st x.1.
  Hypothesis C : contract_expr o st factor e minr maxr (Ok r).
  Lemma ambit_canon_r : mcanon r.
  Proof.
    have [_ [W _]] : wf term_ltb r; last exact: W. apply: (contract_expr_wf o st factor e minr maxr) => //. apply/List.Forall_forall => x Hx. split; first by case: (Hp Hx). exact: (proj1 (List.Forall_forall _ _) Ce).
  Qed.
  Lemma ambit_sum_value (V : lmodType K) (W : seq (bool * (Z * orb)) -> V) :
    \sum_(kp <- prog) array_operator (fun w => W (operators_at orbital w)) dim (key_upper st kp.1) (key_lower st kp.1) (v kp.1 (key_name label kp.1)) = expr_value W T orbs phi0 r.
  Proof.
    rewrite -(expr_numbered orbital dim W T (fun _ => 0%N) phi0). apply: (@ambit_exact_value K st _ dim dimc (fun _ => 0%N) tens number label) => //; [exact: ambit_ready_expr Hp C Hd|exact: ambit_canon_r].
  Qed.
  Lemma ambit_pipe_product (V : lmodType K) (f : {linear A -> V}) : single_reference st -> (forall x, In x e -> product_ok st T x.1 /\ only_ranks st cre ann f (ops_rank x.1) minr maxr) ->
    f (\sum_(kp <- prog) array_operator (fun w => normal_product st cre ann (operators_at orbital w)) dim (key_upper st kp.1) (key_lower st kp.1) (v kp.1 (key_name label kp.1))) = ratK K factor *: f (opexpr_value st cre ann T orbs phi0 e).
  Proof. move=> HS He. rewrite (ambit_sum_value (normal_product st cre ann)). exact: (@expr_contract K A _ st cre ann ch HL HS T orbs U phi0 V f minr maxr o factor e r). Qed.
  Lemma ambit_pipe_gproduct (V : lmodType K) (f : {linear A -> V}) (maxc : nat) N : multi_reference st -> (1 <= maxc)%N -> wt_maxcumulant o = Z.of_nat maxc -> densities st T ->
    generalized_normal_product st cre ann T maxc N -> (forall x, In x e -> gproduct_ok st T maxc x.1 /\ gonly_ranks st N f (ops_rank x.1) minr maxr) ->
    f (\sum_(kp <- prog) array_operator (fun w => N (operators_at orbital w)) dim (key_upper st kp.1) (key_lower st kp.1) (v kp.1 (key_name label kp.1))) = ratK K factor *: f (gopexpr_value st T N orbs phi0 e).
  Proof. move=> HS M1 Em HD HN He. rewrite (ambit_sum_value N). exact: (gexpr_contract ch HL HS M1 HD HN U phi0 Em Cf Ce He C). Qed.
End Product.

(** ** Scalars *)
Lemma ambit_scalar_prog fmt st label r prog : registered_ops st r -> (forall x, In x r -> tm_ops x.1 = [::]) -> generates_ambit fmt st label r prog -> (prog = [::] /\ r = [::]) \/ exists p, prog = [:: (str "|", p)].
Proof.
  move=> Ro Hr [m [Em F]]. have [m' [Em' [Sk [Mk [Ck _]]]]] := manybody_ok st label r Ro. rewrite Em in Em'. case: Em' => Q. subst m'.
  have Kb : forall k l, In (k, l) m -> k = str "|".
    move=> k l /Mk [Ne El]. subst l. case E: (List.filter (fun x => text_eqb (key_of st x) k) r) Ne => [|x xs] // _. have /filter_In [Hx /text_eqb_ok <-] : In x (List.filter (fun x => text_eqb (key_of st x) k) r) by rewrite E; left.
    apply: scalar_key. exact: Hr.
  case: m F Sk Ck Kb {Em Mk} => [|[k l] [|[k' l'] m]] F Sk Ck Kb.
  - inversion F; subst. left. split=> //. case: (r) Ck => [|x r'] // Ck. by have := Ck x (or_introl (erefl _)).
  - right. inversion F as [|? [k0 p] ? ? [E _] F']; subst. inversion F'; subst. cbn [fst] in E. subst k0. exists p. by rewrite (Kb k l (or_introl (erefl _))).
  - cbn [List.map fst] in Sk. inversion Sk as [|? ? _ Lk]; subst. have := proj1 (List.Forall_forall _ _) Lk k' (or_introl (erefl _)). by rewrite (Kb k l (or_introl (erefl _))) (Kb k' l' (or_intror (or_introl (erefl _)))) tltb_irrefl.
Qed.
Section Scalar.
  Variables (K : fieldType) (st : osi) (T : text -> seq (Z * nat) -> seq (Z * nat) -> bool -> K) (dim : Z -> nat) (dimc : ascii -> nat) (phi0 : index -> nat).
  Variables (tens : text -> text -> array K) (number : text -> K) (label : text).
  Hypothesis PR : ambit_registry st.
  Hypothesis Dm : dimensions dim dimc st.
  Hypothesis Pl : plain_name label.
  Let orbs (s : Z) : seq nat := seq.iota 0 (dim s).
  Variables (o : wt_opts) (factor : rational) (ops : oprod) (r : expression) (prog : seq (text * seq text)).
  Hypothesis Cf : canonical factor.
  Hypothesis Pp : ambit_product st ops.
  Hypothesis C : contract o st factor ops 0 0 (Ok r).
  Hypothesis Hd : program_data dim st tens T r.
  Hypothesis Gp : generates_ambit ambit_factor st label r prog.
  Lemma ambit_scalars x : In x r -> tm_ops x.1 = [::].
  Proof. move=> Hx. have [_ H] := ambit_ready_product Pp C Hd Hx. have := co_rank _ _ _ _ _ _ H. case: (tm_ops x.1) => // s l [_] H'. cbn [List.length] in H'. lia. Qed.
  Lemma ambit_scalar_value : (prog = [::] /\ r = [::]) \/ exists p, prog = [:: (str "|", p)] /\ forall v0 v, shape (v0 label) = [::] -> elem (v0 label) [::] = 0 -> ambit_executes dimc tens number p v0 v ->
    elem (v label) [::] = \sum_(x <- r) number (ambit_factor x.2) * term_value (@no_operators K nat_eqType) T orbs phi0 x.1.
  Proof.
    have Rr : forall x, In x r -> ambit_ready T dim st tens ambit_factor x by move=> x Hx; case: (ambit_ready_product Pp C Hd Hx).
    case: (ambit_scalar_prog (@ambit_reg_ops K T dim st tens ambit_factor r Rr) ambit_scalars Gp) => [|[p Ep]]; [by left|right]. exists p. split=> // v0 v Sv Zv X. case: PR => R al.
    have Kn : key_name label (str "|") = label by rewrite /key_name /= List.app_nil_r.
    have := @ambit_program_value K _ (@no_operators K nat_eqType) T dim dimc st tens number phi0 label ambit_factor R al Dm Pl r Rr prog (fun _ => v) Gp. rewrite Ep big_seq1 /array_operator /= Kn. move=> ->.
    - by rewrite big_seq1 /axes_word /= /GRing.scale /= mulr1.
    - move=> k q [[<- <-]|[]]. exists v0. split=> //. rewrite Kn. split; first exact: Sv. by rewrite Sv => ps; rewrite mem_seq1 => /eqP ->.
  Qed.
  Lemma ambit_canon_p : mcanon r.
  Proof. have [_ [W _]] : wf term_ltb r; last exact: W. apply: contract_wf C => //. by case: Pp. Qed.
End Scalar.
Section Energy.
  Variables (K : fieldType) (st : osi) (T : text -> seq (Z * nat) -> seq (Z * nat) -> bool -> K) (dim : Z -> nat) (dimc : ascii -> nat) (phi0 : index -> nat).
  Variables (tens : text -> text -> array K) (number : text -> K) (label : text).
  Hypothesis ch : [char K] =i pred0.
  Hypothesis PR : ambit_registry st.
  Hypothesis Dm : dimensions dim dimc st.
  Hypothesis Pl : plain_name label.
  Let orbs (s : Z) : seq nat := seq.iota 0 (dim s).
  Variables (o : wt_opts) (factor : rational) (ops : oprod) (r : expression) (prog : seq (text * seq text)).
  Hypothesis Cf : canonical factor.
  Hypothesis Pp : ambit_product st ops.
  Hypothesis C : contract o st factor ops 0 0 (Ok r).
  Hypothesis Hd : program_data dim st tens T r.
  Hypothesis Gp : generates_ambit ambit_factor st label r prog.
  Lemma ambit_energy_exact : reads_numbers6 number -> (forall x, In x r -> short6 x.2) -> ambit_computes dimc tens number label prog (expr_value (@no_operators K nat_eqType) T orbs phi0 r).
  Proof.
    move=> Hn Sr. case: (@ambit_scalar_value K st T dim dimc phi0 tens number label PR Dm Pl o factor ops r prog Pp C Hd Gp) => [[-> Er]|[p [Ep H]]]; [left|right]; first by rewrite Er.
    exists p. split=> // v0 v S Z X. rewrite (H v0 v S Z X) /expr_value rsum_big. apply: big_in => x Hx. congr (_ * _). apply: ambit_exact_factor => //; last exact: Sr. have W := ambit_canon_p Cf Pp C. exact: (proj1 (List.Forall_forall _ _) W x Hx).
  Qed.
End Energy.

Section Expectation.
  Variables (K : fieldType) (A : algType K) (orb : eqType) (orbital : Z -> nat -> orb) (st : osi) (cre ann : Z -> orb -> A) (T : text -> seq (Z * orb) -> seq (Z * orb) -> bool -> K) (dim : Z -> nat) (dimc : ascii -> nat) (phi0 : index -> orb).
  Variables (tens : text -> text -> array K) (number : text -> K) (label : text).
  Hypothesis ch : [char K] =i pred0.
  Hypothesis HL : ladder_relations st cre ann.
  Hypothesis PR : ambit_registry st.
  Hypothesis Dm : dimensions dim dimc st.
  Hypothesis Pl : plain_name label.
  Hypothesis Hn : reads_numbers6 number.
  Let orbs (s : Z) : seq orb := all_orbitals orbital dim s.
  Hypothesis U : forall s, uniq (orbs s).
  Variables (o : wt_opts) (factor : rational) (ops : oprod) (r : expression) (prog : seq (text * seq text)) (f : {linear A -> K^o}).
  Hypothesis Cf : canonical factor.
  Hypothesis Pp : ambit_product st ops.
  Hypothesis C : contract o st factor ops 0 0 (Ok r).
  Hypothesis Hd : program_data dim st tens (elements_at orbital T) r.
  Hypothesis Sr : forall x, In x r -> short6 x.2.
  Hypothesis Gp : generates_ambit ambit_factor st label r prog.
  Lemma ambit_pipe_energy : single_reference st -> reference_state st cre ann f -> product_ok st T ops -> ambit_computes dimc tens number label prog (ratK K factor * f (product_value st cre ann T orbs phi0 ops)).
  Proof.
    move=> HS Rf P. rewrite -(@expectation K A orb st cre ann ch HL HS T orbs U phi0 f Rf o factor ops r P Cf C) -(value_none orbital T dim phi0 r (fun _ => 0%N)). exact: (ambit_energy_exact (fun _ => 0%N) ch PR Dm Pl Cf Pp C Hd Gp Hn Sr).
  Qed.
  Lemma ambit_pipe_genergy (maxc : nat) N : multi_reference st -> (1 <= maxc)%N -> wt_maxcumulant o = Z.of_nat maxc -> densities st T -> generalized_normal_product st cre ann T maxc N ->
    correlated_state st cre ann T maxc f -> gproduct_ok st T maxc ops -> ambit_computes dimc tens number label prog (ratK K factor * f (gproduct_value st T N orbs phi0 ops)).
  Proof.
    move=> HS M1 Em HD HN HC P. rewrite -(gexpectation ch HL HS M1 HD HN U phi0 Em HC P Cf C) -(value_none orbital T dim phi0 r (fun _ => 0%N)). exact: (ambit_energy_exact (fun _ => 0%N) ch PR Dm Pl Cf Pp C Hd Gp Hn Sr).
  Qed.
End Expectation.

(** ** Rounding *)
Section Rounding.
  Variables (K : realFieldType) (A : algType K) (orb : eqType) (orbital : Z -> nat -> orb) (st : osi) (cre ann : Z -> orb -> A) (T : text -> seq (Z * orb) -> seq (Z * orb) -> bool -> K) (dim : Z -> nat) (dimc : ascii -> nat) (phi0 : index -> orb).
  Variables (tens : text -> text -> array K) (number : text -> K) (label : text) (o : wt_opts) (factor : rational) (ops : oprod) (r : expression) (f : {linear A -> K^o}).
  Let orbs (s : Z) : seq orb := all_orbitals orbital dim s.
  Lemma ambit_factor_error c : reads_numbers6 number -> canonical c -> `|number (ambit_factor c) - ratK K c| <= qK K (1 # 2000000) + `|ratK K c| * qK K (1 # 2 ^ 51).
  Proof.
    have ch : [char K] =i pred0 := char_num K.
    move=> Hn [Hd _]. have [y [Ry Ey]] := decimal_error 6 c Hd. rewrite (Hn _ _ Ry) ratK_q //; last lia. rewrite -(qK_opp K) -(qK_add ch) !qK_abs -(qK_mul K) -(qK_add ch). apply: qK_le.
    apply: Qle_trans Ey _. apply: Qplus_le_compat; last exact: Qle_refl. by [].
  Qed.
  Lemma ambit_pipe_error p v0 v : ladder_relations st cre ann -> single_reference st -> reference_state st cre ann f -> product_ok st T ops -> (forall s, uniq (orbs s)) ->
    ambit_registry st -> dimensions dim dimc st -> plain_name label -> canonical factor -> ambit_product st ops -> contract o st factor ops 0 0 (Ok r) -> program_data dim st tens (elements_at orbital T) r -> reads_numbers6 number ->
    generates_ambit ambit_factor st label r [:: (str "|", p)] -> shape (v0 label) = [::] -> elem (v0 label) [::] = 0 -> ambit_executes dimc tens number p v0 v ->
    `|elem (v label) [::] - ratK K factor * f (product_value st cre ann T orbs phi0 ops)| <=
      \sum_(x <- r) (qK K (1 # 2000000) + `|ratK K x.2| * qK K (1 # 2 ^ 51)) * `|term_value (@no_operators K orb) T orbs phi0 x.1|.
  Proof.
    move=> HL HS Rf P U PR Dm Pl Cf Pp C Hd Hn Gp S Z X. rewrite -(@expectation K A orb st cre ann (char_num K) HL HS T orbs U phi0 f Rf o factor ops r P Cf C) -(value_none orbital T dim phi0 r (fun _ => 0%N)).
    case: (@ambit_scalar_value K st (elements_at orbital T) dim dimc (fun _ => 0%N) tens number label PR Dm Pl o factor ops r _ Pp C Hd Gp) => [[//]|[q [[<-] H]]]. rewrite (H v0 v S Z X) /expr_value rsum_big.
    have W := proj1 (List.Forall_forall _ _) (ambit_canon_p Cf Pp C). elim: (r) W => [|x l IH] W; first by rewrite !big_nil subr0 normr0. rewrite !big_cons opprD addrACA.
    apply: le_trans (ler_norm_add _ _) _. apply: ler_add; last by apply: IH => y Hy; apply: W; right.
    rewrite -mulrBl normrM -(term_none orbital T dim phi0 (fun _ => 0%N)). apply: ler_wpmul2r; first exact: normr_ge0. apply: ambit_factor_error => //. apply: (W x). by left.
  Qed.
End Rounding.
