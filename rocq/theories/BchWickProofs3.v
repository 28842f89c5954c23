(** C74: the values of operators are combinations of words. *)
Set Warnings "-notation-overridden,-ambiguous-paths".
From Coq Require Import ZArith List Lia Permutation.
From mathcomp Require Import all_ssreflect ssralg.
From Verif Require Import Res RationalModel RegistryModel CoreModel AlgebraModel OperatorModel OperatorSpec SortSpec SortProofs ScalarSem LadderSpec CanonSemSpec WickSearchModel WickSearchSpec WickEvalModel WickCombSpec WickLegSpec WickLegProofs
  WickPairProofs4 WickProductSpec WickTheoremSpec BchProofs BchWickSpec BchWickProofs BchWickProofs2 PipeProofs5.
Set Implicit Arguments.
Unset Strict Implicit.
Unset Printing Implicit Defensive.
Import GRing.Theory.
Local Open Scope ring_scope.

Lemma even_nat n : Z.even (Z.of_nat n) = ~~ odd n.
Proof. elim: n => [|n IH] //. by rewrite Nat2Z.inj_succ Z.even_succ -Z.negb_even IH. Qed.
Section Values.
  Variables (K : fieldType) (A : algType K) (orb : eqType) (st : osi) (cre ann : Z -> orb -> A).
  Hypothesis ch : [char K] =i pred0.
  Hypothesis HL : ladder_relations st cre ann.
  Hypothesis HS : single_reference st.
  Variables (T : text -> seq (Z * orb) -> seq (Z * orb) -> bool -> K) (orbs : Z -> seq orb) (phi0 : index -> orb).
  Notation letter := (bool * (Z * orb))%type.
  Notation span := (span cre ann).
  Notation wp := (wp cre ann).

  Lemma normal_word w : span (fun v => Permutation v w) (normal_product st cre ann w).
  Proof.
    elim: w => [|x w IH] /=; first by have -> : (1 : A) = wp [::] by [rewrite /wp big_nil]; apply: span_word.
    case: ifP => _.
    - apply: (@span_mul _ _ _ cre ann (fun v => v = [:: x]) (fun v => Permutation v w)) IH => [v u -> P|]; first exact: perm_skip.
      have := @span_word _ _ _ cre ann (fun v => v = [:: x]) [:: x] erefl. by rewrite /wp big_seq1.
    - apply: spanZ. apply: (@span_mul _ _ _ cre ann (fun v => Permutation v w) (fun v => v = [:: x])) IH _ => [v u P ->|].
      + by apply: Permutation_trans (Permutation_sym (Permutation_cons_append _ _)) _; exact: perm_skip.
      + have := @span_word _ _ _ cre ann (fun v => v = [:: x]) [:: x] erefl. by rewrite /wp big_seq1.
  Qed.
  Lemma span_sum_over P l phi (F : (index -> orb) -> A) : (forall phi, span P (F phi)) -> span P (sum_over orbs l phi F).
  Proof. move=> H. elim: l phi => [|i l IH] phi //=. by apply: span_sum => p _. Qed.
  Definition leg_letter (phi : leg -> orb) (l : leg) : letter := (leg_cre l, (leg_space l, phi l)).
  Lemma op_words o : span (fun v => exists phi, Permutation v (List.map (leg_letter phi) (product_legs st [:: o]))) (op_value st cre ann T orbs phi0 o).
  Proof.
    rewrite /op_value. apply: spanZ. rewrite /term_value. apply: span_sum_over => phi. rewrite /value_at. apply: spanZ. apply: span_imp (normal_word _) => v P. exists (fun l => phi (op_index o l)).
    move: P. rewrite /op_as_term /= /word List.map_map. by [].
  Qed.
  Variable P : oper -> Prop.
  Hypothesis N : (nsp st <= max_spaces)%coq_nat.
  Hypothesis HP : forall o, P o -> op_valid st o /\ nonneg_counts st o.
  Lemma one_ok o : P o -> ops_ok st [:: o].
  Proof. move=> /HP H. split=> //. by constructor. Qed.
  Lemma op_regular o : P o -> span (fun w => reg st w /\ Z.of_nat (size w) = op_num o) (op_value st cre ann T orbs phi0 o).
  Proof.
    move=> Po. have Ok := one_ok Po. apply: span_imp (op_words o) => v [phi Pv]. split.
    - move=> x /(Permutation_in _ Pv) /in_map_iff [l [<- /(in_product st [:: o] _) [_ [H _]]]]. exact: H.
    - have := legs_rank st [:: o] Ok. rewrite -[length _](List.map_length (leg_letter phi)) -(Permutation_length Pv). by rewrite /ops_rank /=.
  Qed.
  Lemma op_exciting o : P o -> only_excites st o -> span (fun w => exc st w /\ Z.of_nat (size w) = op_num o) (op_value st cre ann T orbs phi0 o).
  Proof.
    move=> Po E. have Ok := one_ok Po. apply: span_imp (op_words o) => v [phi Pv]. split.
    - move=> x /(Permutation_in _ Pv) /in_map_iff [l [<- /(in_product st [:: o] _) [Hl [H C]]]]. split; first exact: H.
      case: l Hl H C => [[[k s] b] i]. rewrite /leg_op /leg_space /= => Hl H C. have K0 : k = 0%N by lia. subst k. have [E1 E2] := E s H. have [_ [D|D]] := HS H.
      + rewrite /makes_excitation /leg_letter /leg_cre /leg_space /= D. case: b C => //. rewrite /ops_cre /= E1 //. lia.
      + rewrite /makes_excitation /leg_letter /leg_cre /leg_space /= D. case: b C => //. rewrite /ops_ann /= E2 //. lia.
    - have := legs_rank st [:: o] Ok. rewrite -[length _](List.map_length (leg_letter phi)) -(Permutation_length Pv). by rewrite /ops_rank /=.
  Qed.
  Lemma rank_cons o p : ops_rank (o :: p) = (op_num o + ops_rank p)%Z.
  Proof. by rewrite (rank_app [:: o] p). Qed.
  Lemma product_regular p : (forall o, In o p -> P o) -> span (fun w => reg st w /\ Z.of_nat (size w) = ops_rank p) (product_value st cre ann T orbs phi0 p).
  Proof.
    elim: p => [|o p IH] H; first by rewrite /product_value big_nil; have := @span_word _ _ _ cre ann (fun w => reg st w /\ Z.of_nat (size w) = ops_rank [::]) [::]; rewrite /wp big_nil; apply; split.
    rewrite /product_value big_cons. apply: span_mul (op_regular (H o (or_introl erefl))) (IH (fun q Hq => H q (or_intror Hq))) => v w [R1 S1] [R2 S2]. split.
    - by move=> x /in_app_iff [/R1|/R2].
    - rewrite rank_cons size_cat Nat2Z.inj_add. lia.
  Qed.
  Lemma product_exciting p : (forall o, In o p -> P o /\ only_excites st o) -> span (fun w => exc st w /\ Z.of_nat (size w) = ops_rank p) (product_value st cre ann T orbs phi0 p).
  Proof.
    elim: p => [|o p IH] H; first by rewrite /product_value big_nil; have := @span_word _ _ _ cre ann (fun w => exc st w /\ Z.of_nat (size w) = ops_rank [::]) [::]; rewrite /wp big_nil; apply; split.
    have [H1 H2] := H o (or_introl erefl). rewrite /product_value big_cons. apply: span_mul (op_exciting H1 H2) (IH (fun q Hq => H q (or_intror Hq))) => v w [R1 S1] [R2 S2]. split.
    - by move=> x /in_app_iff [/R1|/R2].
    - rewrite rank_cons size_cat Nat2Z.inj_add. lia.
  Qed.
  Lemma expr_regular e n : (forall o, operators_of e o -> P o) -> legs_at_most e (Z.of_nat n) -> span (fun w => reg st w /\ (size w <= n)%N) (opexpr_value st cre ann T orbs phi0 e).
  Proof.
    move=> H L. rewrite /opexpr_value rsum_big. apply: span_sum => x Hx. apply: spanZ. apply: span_imp (product_regular (p := x.1) _) => [w [R S]|o Ho]; last by apply: H; exists x.
    split=> //. apply/leP. have := L x Hx. lia.
  Qed.
  Lemma expr_exciting e : (forall o, operators_of e o -> P o) -> cluster_operator st e -> span (fun w => even_exc st w /\ w <> [::]) (opexpr_value st cre ann T orbs phi0 e).
  Proof.
    move=> H C. rewrite /opexpr_value rsum_big. apply: span_sum => x Hx. have [E [Ev Nz]] := C x Hx. apply: spanZ. apply: span_imp (product_exciting (p := x.1) _) => [w [R S]|o Ho]; last by split; [apply: H; exists x|exact: E].
    rewrite -S in Ev Nz. split; last by move=> W; move: Nz; rewrite W. split=> //.
    by move: Ev; rewrite even_nat.
  Qed.
End Values.
