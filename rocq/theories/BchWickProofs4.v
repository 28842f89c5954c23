(** C74: contractions of commutators, the BCH series and coupled-cluster expectation values. *)
Set Warnings "-notation-overridden,-ambiguous-paths".
From Coq Require Import ZArith List Lia Permutation.
From mathcomp Require Import all_ssreflect ssralg.
From Verif Require Import Res RationalModel RationalSpec RegistryModel CoreModel OrderProofs AlgebraModel AlgebraSpec AlgebraProofs OperatorModel OperatorSpec SortSpec SortProofs ScalarSem LadderSpec CanonSemSpec CanonSemProofs WickSearchModel WickSearchSpec WickEvalModel WickCombSpec WickLegSpec
  WickLegProofs WickPairSpec WickPairProofs4 WickProductSpec WickTheoremSpec WickTotalProofs WickLinearSpec WickLinearProofs WickProductProofs15 WickGeneralSpec WickGenProofs13 WickGeneralExample ContractShapeSpec ContractShapeProofs2 OperatorSemSpec OperatorSemProofs BchProofs BchWickSpec BchWickProofs BchWickProofs2 BchWickProofs3 PipeProofs5.
Set Implicit Arguments.
Unset Strict Implicit.
Unset Printing Implicit Defensive.
Import GRing.Theory.
Local Open Scope ring_scope.

(** ** The products of the results *)
Section Keys.
  Variables (S : oper -> Prop).
  Definition made_of (n : Z) (p : oprod) : Prop := (forall o, In o p -> S o) /\ (ops_rank p <= n)%Z.
  Lemma made_app n m p q : made_of n p -> made_of m q -> made_of (n + m) (p ++ q)%list.
  Proof. move=> [H1 R1] [H2 R2]. split=> [o /in_app_iff [/H1|/H2] //|]. rewrite rank_app. lia. Qed.
  Lemma made_expr e n : (forall o, operators_of e o -> S o) -> legs_at_most e n -> keysP (made_of n) e.
  Proof. move=> H L. apply/List.Forall_forall => x Hx. split=> [o Ho|]; [by apply: H; exists x|exact: L]. Qed.
  Lemma made_list l ns : List.Forall2 legs_at_most l ns -> (forall b, In b l -> forall q, operators_of b q -> S q) -> List.Forall2 (fun b m => keysP (made_of m) b) l ns.
  Proof.
    move=> F. elim: F => [|b m l' ns' Lb F IH] G; first by constructor. constructor; last by apply: IH => c Hc; apply: G; right.
    by apply: made_expr => //; apply: G; left.
  Qed.
  Lemma made_commutators l ns a n r : keysP (made_of n) a -> List.Forall2 (fun b m => keysP (made_of m) b) l ns -> commutator_args (a :: l) = Ok r -> keysP (made_of (n + fold_right Z.add Z0 ns)) r.
  Proof.
    rewrite /commutator_args => Ka F. elim: F a n Ka => [|b m l' ns' Kb F IH] a n Ka /=; first by move=> [<-]; rewrite Z.add_0_r.
    case E: (op_commutator a b) => [c| | |] //= X. have -> : (n + (m + fold_right Z.add Z0 ns') = (n + m) + fold_right Z.add Z0 ns')%Z by lia.
    apply: IH X. apply: (commutator_keys (P := made_of n) (Q := made_of m) _ Ka Kb E) => p q Hp Hq. split; first exact: made_app. by rewrite Z.add_comm; apply: made_app.
  Qed.
  Lemma made_bch a b (k : nat) na nb r : (0 <= nb)%Z -> keysP (made_of na) a -> keysP (made_of nb) b -> bch_series a b (Z.of_nat k) = Ok r -> keysP (made_of (na + Z.of_nat k * nb)) r.
  Proof.
    move=> H0 Ka Kb. apply: (bch_keys (P := fun i => made_of (na + Z.of_nat i * nb)%Z) (Q := made_of nb)) => [i p q Hp Hq|i p Li [H1 H2]||//].
    - have -> : (na + Z.of_nat i.+1 * nb = (na + Z.of_nat i * nb) + nb)%Z by lia. split; first exact: made_app. by rewrite Z.add_comm; apply: made_app.
    - split=> //. have L : (i <= k)%coq_nat by apply/leP; rewrite Nat2Z.id in Li. have := Zmult_le_compat_r (Z.of_nat i) (Z.of_nat k) nb ltac:(lia) H0. lia.
    - by rewrite Z.mul_0_l Z.add_0_r.
  Qed.
End Keys.

(** ** Contractions *)
Section Single.
  Variables (K : fieldType) (A : algType K) (orb : eqType) (st : osi) (cre ann : Z -> orb -> A).
  Hypothesis ch : [char K] =i pred0.
  Hypothesis HL : ladder_relations st cre ann.
  Hypothesis HS : single_reference st.
  Variables (T : text -> seq (Z * orb) -> seq (Z * orb) -> bool -> K) (orbs : Z -> seq orb) (phi0 : index -> orb).
  Hypothesis U : forall s, uniq (orbs s).
  Variables (o : wt_opts) (factor : rational) (minr maxr : Z) (V : lmodType K) (f : {linear A -> V}).
  Hypothesis Cf : canonical factor.
  Notation value := (opexpr_value st cre ann T orbs phi0).
  Notation result r := (f (expr_value (normal_product st cre ann) T orbs phi0 r)).
  Lemma only_less n m : only_ranks st cre ann f n minr maxr -> (m <= n)%Z -> only_ranks st cre ann f m minr maxr.
  Proof. move=> H L w Hw Hs. apply: H => //. lia. Qed.
  Lemma contract_made (S : oper -> Prop) n r0 r : (nsp st <= max_spaces)%coq_nat -> (forall q, S q -> op_valid st q /\ nonneg_counts st q /\ antisymmetric_tensor T (op_label q)) ->
    (forall q q', S q -> S q' -> twice_at_most st q q') -> only_ranks st cre ann f n minr maxr -> wf oprod_ltb r0 -> keysP (made_of S n) r0 ->
    contract_expr o st factor r0 minr maxr (Ok r) -> result r = ratK K factor *: f (value r0).
  Proof.
    move=> N Vd Dd Hf [_ [C0 _]] Kr. apply: (expr_contract ch HL HS U) => // x Hx. have [H1 H2] := proj1 (List.Forall_forall _ _) Kr x Hx. split; first exact: (good_product N Vd Dd H1).
    exact: only_less H2.
  Qed.
  Lemma contract_commutators a l na ns r0 r : wf oprod_ltb a -> List.Forall (wf oprod_ltb) l -> (forall e, In e (a :: l) -> operators_ok st T e) ->
    (forall q q' e e', In e (a :: l) -> In e' (a :: l) -> operators_of e q -> operators_of e' q' -> twice_at_most st q q') ->
    legs_at_most a na -> List.Forall2 legs_at_most l ns -> only_ranks st cre ann f (na + fold_right Z.add Z0 ns) minr maxr ->
    commutator_args (a :: l) = Ok r0 -> contract_expr o st factor r0 minr maxr (Ok r) -> result r = ratK K factor *: f (commutators_of (value a) [seq value b | b <- l]).
  Proof.
    move=> Wa Wl Ok D La Ll Hf E C. pose S q := exists e, In e (a :: l) /\ operators_of e q.
    have [r1 [E1 [W1 Er]]] := @commutator_args_den K A ch (op_value st cre ann T orbs phi0) l a Wa Wl. rewrite E in E1. case: E1 => Q. subst r1. rewrite /commutators_of -[foldl _ _ _]Er.
    apply: (contract_made (S := S) _ _ _ Hf W1 _ C).
    - by case: (Ok a (or_introl erefl)).
    - move=> q [e [He Hq]]. exact: (proj2 (Ok e He) q Hq).
    - move=> q q' [e [He Hq]] [e' [He' Hq']]. exact: (D q q' e e').
    - apply: (made_commutators _ _ E); first by apply: made_expr => // q Hq; exists a; split=> //; left.
      apply: (made_list (S := S) Ll) => b Hb q Hq. exists b. by split=> //; right.
  Qed.
  Lemma contract_bch a b (n : nat) na nb r0 r : wf oprod_ltb a -> wf oprod_ltb b -> operators_ok st T a -> operators_ok st T b ->
    (forall q q', operators_of a q \/ operators_of b q -> operators_of a q' \/ operators_of b q' -> twice_at_most st q q') ->
    legs_at_most a na -> legs_at_most b nb -> (0 <= nb)%Z -> only_ranks st cre ann f (na + Z.of_nat n * nb) minr maxr ->
    bch_series a b (Z.of_nat n) = Ok r0 -> contract_expr o st factor r0 minr maxr (Ok r) -> result r = ratK K factor *: f (bch_sum (value a) (value b) n).
  Proof.
    move=> Wa Wb Oa Ob D La Lb N0 Hf E C.
    have [r1 [E1 [W1 Er]]] := @bch_series_den K A ch (op_value st cre ann T orbs phi0) a b (Z.of_nat n) Wa Wb. rewrite E in E1. case: E1 => Q. subst r1. rewrite Nat2Z.id in Er.
    transitivity (ratK K factor *: f (value r0)); last by congr (_ *: f _); exact: Er.
    apply: (contract_made (S := fun q => operators_of a q \/ operators_of b q) _ _ _ Hf W1 _ C).
    - by case: Oa.
    - by move=> q [/(proj2 Oa)|/(proj2 Ob)].
    - exact: D.
    - by apply: (made_bch N0 _ _ E); apply: made_expr => // q Hq; [left|right].
  Qed.
  (** ** Cluster operators *)
  Lemma cluster_nilpotent b : operators_ok st T b -> cluster_operator st b -> exists m, value b ^+ m = 0.
  Proof. move=> [N H] C. apply: (span_nilpotent ch HL HS). apply: (@expr_exciting K A orb st cre ann HS T orbs phi0 (operators_of b)) => // q /H [? [? _]]. by split. Qed.
  Lemma cluster_vanishes a b (n : nat) : operators_ok st T a -> operators_ok st T b -> cluster_operator st b -> legs_at_most a (Z.of_nat n) -> vanishes (value b) n.+1 (value a).
  Proof.
    move=> [N Ha] [_ Hb] C L. apply: (span_vanishes HL HS (n := n)).
    - have := @expr_exciting K A orb st cre ann HS T orbs phi0 (operators_of b) N (fun q H => let: conj x (conj y _) := Hb q H in conj x y) b (fun q H => H) C. by apply: span_imp => w [].
    - exact: (@expr_regular K A orb st cre ann T orbs phi0 (operators_of a) N (fun q H => let: conj x (conj y _) := Ha q H in conj x y) a n (fun q H => H) L).
  Qed.
  Lemma contract_exact a b (n d : nat) nb r0 r m : wf oprod_ltb a -> wf oprod_ltb b -> operators_ok st T a -> operators_ok st T b -> (forall q, operators_of a q -> two_body st q) -> cluster_operator st b ->
    legs_at_most a (Z.of_nat d) -> (d <= n)%N -> legs_at_most b nb -> (0 <= nb)%Z -> only_ranks st cre ann f (Z.of_nat d + Z.of_nat n * nb) minr maxr -> value b ^+ m = 0 ->
    bch_series a b (Z.of_nat n) = Ok r0 -> contract_expr o st factor r0 minr maxr (Ok r) -> result r = ratK K factor *: f (exponential m (- value b) * value a * exponential m (value b)).
  Proof.
    move=> Wa Wb Oa Ob Ta Cb La Ld Lb N0 Hf Z E C. rewrite (contract_bch Wa Wb Oa Ob _ La Lb N0 Hf E C).
    - by rewrite (bch_exact ch (cluster_vanishes Oa Ob Cb La) Ld Z).
    - apply: two_body_links Ta _ => q [x [Hx Hq]]. right. by have [H _] := Cb x Hx; exact: H.
  Qed.
End Single.

(** ** Expectation values *)
Section Scalar.
  Variables (K : fieldType) (A : algType K) (orb : eqType) (st : osi) (T : text -> seq (Z * orb) -> seq (Z * orb) -> bool -> K) (orbs : Z -> seq orb) (phi0 : index -> orb).
  Variables (W : seq (bool * (Z * orb)) -> A) (f : {linear A -> K^o}).
  Hypothesis f1 : f (W [::]) = 1.
  Lemma scalar_sum l phi (F : (index -> orb) -> A) (G : (index -> orb) -> K^o) : (forall phi, f (F phi) = G phi) -> f (sum_over orbs l phi F) = sum_over orbs l phi G.
  Proof. move=> E. elim: l phi => [|i l IH] phi //=. rewrite linear_sum. by apply: eq_bigr => p _; exact: IH. Qed.
  Lemma scalar_expr r : (forall x, In x r -> tm_ops x.1 = [::]) -> f (expr_value W T orbs phi0 r) = expr_value (@no_operators K orb) T orbs phi0 r.
  Proof.
    move=> H. rewrite /expr_value !rsum_big linear_sum. apply: big_in => x Hx. rewrite linearZ. congr (_ *: _). rewrite /term_value. apply: scalar_sum => phi. rewrite /value_at linearZ (H x Hx) /=. congr (_ *: _). exact: f1.
  Qed.
End Scalar.
Lemma scalar_terms st o factor e r : (forall x, In x e -> ops_ok st x.1) -> contract_expr o st factor e 0 0 (Ok r) -> forall x, In x r -> tm_ops x.1 = [::].
Proof.
  move=> He C x Hx. have Hok : List.Forall (fun y => ops_ok st y.1) e by apply/List.Forall_forall.
  have [y [Hy Sh]] := proj1 (Forall_forall _ _) (contract_expr_shape o st factor e 0 0 r Hok C) x Hx. have := co_rank _ _ _ _ _ _ Sh. case: (tm_ops x.1) => // s l [_] H'. cbn [List.length] in H'. lia.
Qed.
