(** C74: the numpy program of a coupled-cluster expectation value. *)
Set Warnings "-notation-overridden,-ambiguous-paths".
From Coq Require Import ZArith QArith List Lia Ascii String.
From mathcomp Require Import all_ssreflect ssralg.
From Verif Require Import Res RationalModel RationalSpec RationalProofs RegistryModel RegistryProofs CoreModel AlgebraModel AlgebraSpec AlgebraProofs OperatorModel OperatorSpec ScalarSem LadderSpec CanonSpec CanonSemSpec CanonSemProofs WickSearchModel WickSearchSpec WickEvalModel OperatorSemSpec OperatorSemProofs
  WickPairSpec WickProductSpec WickTheoremSpec WickLinearProofs WickProductProofs14 ContractShapeProofs3 DecimalModel TextModel TextSpec EquationModel EquationSpec EinsumSpec PipeSpec PipeProofs PipeProofs4 PipeProofs5 PipeProofs6 PipeProofs7 BchWickSpec BchWickProofs BchWickProofs2 BchWickProofs4 BchWickProofs5.
Set Implicit Arguments.
Unset Strict Implicit.
Unset Printing Implicit Defensive.
Import GRing.Theory.
Local Open Scope ring_scope.
Delimit Scope Z_scope with Z.

Section Scalars.
  Variables (K : fieldType) (A : algType K) (orb : eqType) (orbital : Z -> nat -> orb) (st : osi) (T : text -> seq (Z * orb) -> seq (Z * orb) -> bool -> K) (dim : Z -> nat) (phi0 : index -> orb).
  Variables (tens : text -> text -> array K) (number : text -> K) (label : text).
  Hypothesis ch : [char K] =i pred0.
  Hypothesis PR : program_registry st.
  Hypothesis Pl : plain label.
  Hypothesis Hn : reads_numbers number.
  Let orbs (s : Z) : seq orb := all_orbitals orbital dim s.
  Variables (o : wt_opts) (factor : rational) (e : opexpr) (r : expression) (prog : seq (text * seq text)).
  Hypothesis Cf : canonical factor.
  Hypothesis Ce : mcanon e.
  Hypothesis Hp : forall x, In x e -> program_product st x.1.
  Hypothesis C : contract_expr o st factor e 0 0 (Ok r).
  Hypothesis Hd : program_data dim st tens (elements_at orbital T) r.
  Hypothesis Sr : forall x, In x r -> short x.2.
  Hypothesis Gp : generates einsum_factor st label r prog.
  Lemma expr_computes : computes tens number label prog (expr_value (@no_operators K orb) T orbs phi0 r).
  Proof.
    have Rr := ready_expr Hp C Hd.
    have Tn t : term_value (@no_operators K nat_eqType) (elements_at orbital T) (fun s => seq.iota 0 (dim s)) (fun _ => 0%N) t = term_value (@no_operators K orb) T orbs phi0 t.
    { rewrite -(term_numbered orbital dim (@no_operators K orb) T (fun _ => 0%N) phi0) /term_value. apply: sum_over_ext => a. rewrite /value_at. congr (_ *: _). by case: (word a (tm_ops t)). }
    have Sc x : In x r -> tm_ops x.1 = [::] by apply: scalar_terms C x => y /Hp [].
    have Wr : mcanon r. { have [_ [W _]] : wf term_ltb r; last exact: W. apply: (contract_expr_wf o st factor e 0 0) => //. apply/List.Forall_forall => x Hx. split; first by case: (Hp Hx). exact: (proj1 (List.Forall_forall _ _) Ce). }
    case: (scalar_prog (@reg_ops K _ dim st tens einsum_factor r Rr) Sc Gp) => [[-> Er]|[p Ep]]; [left|right]; first by rewrite Er.
    exists p. split=> // v0 v Sv Zv X. case: (PR) => R [G al].
    have Kn : key_name label (str "|") = label by rewrite /key_name /= List.app_nil_r.
    have := @program_value K _ (@no_operators K nat_eqType) _ dim st tens number (fun _ => 0%N) label einsum_factor R G al Pl r Rr prog (fun _ => v) Gp. rewrite Ep big_seq1 /array_operator /= Kn. rewrite big_seq1 /axes_word /= /GRing.scale /= mulr1. move=> <-.
    - rewrite /expr_value rsum_big. apply: big_in => x Hx. rewrite Tn. congr (_ * _). apply: exact_factor => //; last exact: Sr. exact: (proj1 (List.Forall_forall _ _) Wr x Hx).
    - move=> k q [[<- <-]|[]]. exists v0. split=> //. rewrite Kn. split; first exact: Sv. by rewrite Sv => ps; rewrite mem_seq1 => /eqP ->.
  Qed.
End Scalars.

Lemma nonempty_app (p q : oprod) : p <> [::] -> (p ++ q)%list <> [::] /\ (q ++ p)%list <> [::].
Proof. move=> H. split=> E; apply: H; [by case: (List.app_eq_nil _ _ E)|by case: (List.app_eq_nil _ _ E)]. Qed.
Lemma series_program (K : fieldType) (orb : eqType) st (T : text -> seq (Z * orb) -> seq (Z * orb) -> bool -> K) a b (n : nat) na nb r0 : operators_ok st T a -> operators_ok st T b -> legs_at_most a na -> legs_at_most b nb -> (0 <= nb)%Z ->
  (na + Z.of_nat n * nb <= 52)%Z -> (forall q, operators_of a q \/ operators_of b q -> plain (op_label q)) -> (forall x, In x a -> x.1 <> [::]) ->
  bch_series a b (Z.of_nat n) = Ok r0 -> forall x, In x r0 -> program_product st x.1.
Proof.
  move=> Oa Ob La Lb N0 L52 Pq Na E x Hx. have [Ok L] := series_ok Oa Ob La Lb N0 E Hx. have [H1 _] := proj1 (List.Forall_forall _ _) (series_keys Oa Ob La Lb N0 E) x Hx.
  have Ne : keysP (fun p : oprod => p <> [::]) r0.
  { apply: (bch_keys (P := fun _ p => p <> [::]) (Q := fun _ => True) _ _ _ _ E) => [k p q Hp _|//||]; first exact: nonempty_app.
    - by apply/List.Forall_forall => y /Na.
    - by apply/List.Forall_forall. }
  split=> //. split; first exact: (proj1 (List.Forall_forall _ _) Ne x Hx). split; first lia. by move=> q /H1 /Pq.
Qed.

Section Program.
  Variables (K : fieldType) (A : algType K) (orb : eqType) (orbital : Z -> nat -> orb) (st : osi) (cre ann : Z -> orb -> A) (T : text -> seq (Z * orb) -> seq (Z * orb) -> bool -> K) (dim : Z -> nat) (phi0 : index -> orb).
  Variables (tens : text -> text -> array K) (number : text -> K) (label : text).
  Hypothesis ch : [char K] =i pred0.
  Hypothesis HL : ladder_relations st cre ann.
  Hypothesis HS : single_reference st.
  Hypothesis PR : program_registry st.
  Hypothesis Pl : plain label.
  Hypothesis Hn : reads_numbers number.
  Let orbs (s : Z) : seq orb := all_orbitals orbital dim s.
  Hypothesis U : forall s, uniq (orbs s).
  Variables (o : wt_opts) (factor : rational) (f : {linear A -> K^o}).
  Hypothesis Cf : canonical factor.
  Hypothesis Rf : reference_state st cre ann f.
  Notation value := (opexpr_value st cre ann T orbs phi0).
  Lemma program_energy a b (n d : nat) nb r0 r m prog : wf oprod_ltb a -> wf oprod_ltb b -> operators_ok st T a -> operators_ok st T b -> (forall q, operators_of a q -> two_body st q) -> cluster_operator st b ->
    legs_at_most a (Z.of_nat d) -> (d <= n)%N -> legs_at_most b nb -> (0 <= nb)%Z -> value b ^+ m = 0 -> (Z.of_nat d + Z.of_nat n * nb <= 52)%Z ->
    (forall q, operators_of a q \/ operators_of b q -> plain (op_label q)) -> (forall x, In x a -> x.1 <> [::]) ->
    bch_series a b (Z.of_nat n) = Ok r0 -> contract_expr o st factor r0 0 0 (Ok r) -> program_data dim st tens (elements_at orbital T) r -> (forall x, In x r -> short x.2) ->
    generates einsum_factor st label r prog -> computes tens number label prog (ratK K factor * f (exponential m (- value b) * value a * exponential m (value b))).
  Proof.
    move=> Wa Wb Oa Ob Ta Cb La Ld Lb N0 Z L52 Pq Na E C Hd Sr Gp. have [r1 [E1 [[_ [W1 _]] _]]] := @bch_series_den K A ch (op_value st cre ann T orbs phi0) a b (Z.of_nat n) Wa Wb. rewrite E in E1. case: E1 => Q. subst r1.
    rewrite -(contract_energy ch HL HS U Cf Rf Wa Wb Oa Ob Ta Cb La Ld Lb N0 Z E C).
    exact: (expr_computes phi0 ch PR Pl Hn Cf W1 (series_program Oa Ob La Lb N0 L52 Pq Na E) C Hd Sr Gp).
  Qed.
End Program.
