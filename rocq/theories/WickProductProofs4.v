(** C48: the product of the operators as a sum over sets of contracted pairs. *)
Set Warnings "-notation-overridden,-ambiguous-paths".
From Coq Require Import ZArith List Lia Permutation.
From mathcomp Require Import all_ssreflect ssralg.
From Verif Require Import CountProofs Res RationalModel RegistryModel CoreModel OperatorModel OrderProofs WickSearchModel WickSearchSpec CountSpec WickCombSpec WickCombProofs WickLegSpec WickLegProofs SortSpec SortProofs ScalarSem LadderSpec CanonSpec CanonSemSpec CanonSemProofs
  WickMatchProofs WickMatchProofs2 WickProductSpec WickProductProofs WickProductProofs2 WickProductProofs3.
Set Implicit Arguments.
Unset Strict Implicit.
Unset Printing Implicit Defensive.
Import GRing.Theory.
Local Open Scope ring_scope.

Lemma flat_map_flatten (X Y : Type) (f : X -> seq Y) l : flat_map f l = flatten [seq f x | x <- l].
Proof. by elim: l => [|x l IH] //=; rewrite IH. Qed.
Lemma in_iota n A : In A (iota 0 n) <-> (A < n)%N.
Proof. change (In A (List.seq 0 n) <-> (A < n)%N). rewrite in_seq. split; [move=> H; apply/ltP; lia|move/ltP => H; lia]. Qed.

Section TermList.
  Variables (K : fieldType) (V : lmodType K) (orb : eqType) (W : seq (bool * (Z * orb)) -> V).
  Variable T : text -> seq (Z * orb) -> seq (Z * orb) -> bool -> K.
  Variable orbs : Z -> seq orb.
  Lemma term_value_list phi0 l t : lists_indices l t -> term_value W T orbs phi0 t = sum_over orbs l phi0 (fun phi => value_at W T phi t).
  Proof.
    move=> [ND Hl]. rewrite /term_value. have [ND2 H2] := slots_list t. apply: sum_perm => //.
    - move=> phi psi E. exact: value_ext.
    - apply: NoDup_Permutation => // i. by rewrite H2 Hl.
  Qed.
End TermList.

Section Blocks.
  Variables (st : osi) (ops : oprod).
  Notation n := (length ops).
  Notation opA A := (List.nth A ops (mkOp [::] gm_zero)).
  Definition blk (A : nat) : seq leg := op_cre_legs st ops A ++ List.rev (op_ann_legs st ops A).
  Definition blks : seq (seq leg) := [seq blk A | A <- iota 0 n].
  Lemma legs_blks : product_legs st ops = flatten blks.
  Proof. by rewrite /product_legs flat_map_flatten. Qed.
  Lemma rev_eq (X : Type) (l : seq X) : List.rev l = rev l.
  Proof. elim: l => [|x l IH] //=. by rewrite IH rev_cons -cats1. Qed.
  Definition shift (A : nat) (l : leg) : leg := ((A, leg_space l, leg_cre l), snd l).
  Lemma cre_shift A : op_cre_legs st ops A = List.map (shift A) (op_cre_legs st [:: opA A] 0).
  Proof.
    rewrite /op_cre_legs. elim: (range (num_spaces st)) => [|s l IH] //=. rewrite IH List.map_app [in RHS]List.map_map. by [].
  Qed.
  Lemma ann_shift A : op_ann_legs st ops A = List.map (shift A) (op_ann_legs st [:: opA A] 0).
  Proof.
    rewrite /op_ann_legs. elim: (range (num_spaces st)) => [|s l IH] //=. rewrite IH List.map_app [in RHS]List.map_map. by [].
  Qed.
  Lemma in_cre A l : In l (op_cre_legs st ops A) -> leg_op l = A /\ leg_cre l = true /\ is_space st (leg_space l).
  Proof.
    rewrite /op_cre_legs => H. apply in_flat_map in H. case: H => s [/range_in Hs /in_map_iff [i [<- _]]]. by [].
  Qed.
  Lemma in_ann A l : In l (op_ann_legs st ops A) -> leg_op l = A /\ leg_cre l = false /\ is_space st (leg_space l).
  Proof.
    rewrite /op_ann_legs => H. apply in_flat_map in H. case: H => s [/range_in Hs /in_map_iff [i [<- _]]]. by [].
  Qed.
  Lemma in_blk A l : In l (blk A) -> leg_op l = A /\ is_space st (leg_space l).
  Proof. move=> H. apply List.in_app_or in H. case: H => [/in_cre|H]; first by tauto. apply List.in_rev in H. move/in_ann: H. by tauto. Qed.
  Lemma blk_shift A : blk A = List.map (shift A) (product_legs st [:: opA A]).
  Proof. by rewrite /product_legs /= List.app_nil_r List.map_app List.map_rev -cre_shift -ann_shift. Qed.
End Blocks.

Section OpValue.
  Variables (K : fieldType) (V : lmodType K) (orb : eqType) (W : seq (bool * (Z * orb)) -> V).
  Variable T : text -> seq (Z * orb) -> seq (Z * orb) -> bool -> K.
  Variables (orbs : Z -> seq orb) (st : osi) (ops : oprod).
  Notation opA A := (List.nth A ops (mkOp [::] gm_zero)).
  Definition xs (v : leg -> orb) (l : leg) : Z * orb := (leg_space l, v l).
  Definition xl (v : leg -> orb) (l : leg) : bool * (Z * orb) := (leg_cre l, xs v l).
  Definition tel (v : leg -> orb) (A : nat) : K := T (op_label (opA A)) (List.map (xs v) (op_cre_legs st ops A)) (List.map (xs v) (op_ann_legs st ops A)) false.

  Lemma op_index_inj o l l' : In l (product_legs st [:: o]) -> In l' (product_legs st [:: o]) -> op_index o l = op_index o l' -> l = l'.
  Proof.
    move=> /in_product [Hl [Hs Hi]] /in_product [Hl' [Hs' Hi']]. move: Hl Hl' Hs Hs' Hi Hi'. case: l => [[[A s] b] i]. case: l' => [[[A' s'] b'] i'].
    rewrite /op_index /leg_count /ops_cre /ops_ann /leg_op /leg_space /leg_cre /= => Hl Hl' Hs Hs'.
    have -> : A = 0%N by lia. have -> : A' = 0%N by lia. case: b; case: b' => /= Hi Hi' [Es]; rewrite -Es => E.
    - by rewrite E.
    - rewrite -Es in Hi'. lia.
    - rewrite -Es in Hi'. lia.
    - have -> // : i = i' by lia.
  Qed.
  Lemma map_nodup (X Y : Type) (f : X -> Y) l : NoDup l -> (forall x y, In x l -> In y l -> f x = f y -> x = y) -> NoDup (List.map f l).
  Proof.
    elim: l => [|x l IH] /= ND H; first by constructor. case/NoDup_cons_iff: ND => Nx ND. constructor.
    - move/in_map_iff => [y [E Hy]]. apply: Nx. have -> // : x = y. apply: H; by [left|right|].
    - apply: IH => // y z Hy Hz. apply: H; by right.
  Qed.
  Lemma op_term_indices o : lists_indices (List.map (op_index o) (product_legs st [:: o])) (op_as_term st o).
  Proof.
    split.
    - apply: map_nodup; first exact: product_nodup. exact: op_index_inj.
    - move=> i. rewrite in_map_iff. split.
      + move=> [l [<- Hl]]. left. exists (leg_sqop (op_index o) l). split=> //. exact: List.in_map.
      + case=> [[x [/in_map_iff [l [<- Hl]] <-]]|[d [[<-|//] Hi]]]; first by exists l.
        rewrite /op_tensor /= in Hi. have E : product_legs st [:: o] = blk st [:: o] 0 by rewrite /product_legs /= List.app_nil_r.
        case: Hi => /in_map_iff [l [<- Hl]]; exists l; split=> //; rewrite E; apply: List.in_or_app; [by left|right]. apply/List.in_rev. by rewrite List.rev_involutive.
  Qed.
  Lemma op_term_value phi0 v0 A : term_value W T orbs phi0 (op_as_term st (opA A)) = \sum_(v <- assigns orbs (blk st ops A) v0) tel v A *: W (List.map (xl v) (blk st ops A)).
  Proof.
    rewrite (term_value_list W T orbs phi0 (op_term_indices _)). set o := opA A. set L0 := product_legs st [:: o].
    apply: asum_index.
    - by rewrite blk_shift !List.map_map.
    - exact: (proj1 (op_term_indices o)).
    - rewrite blk_shift. apply: map_nodup; first exact: product_nodup.
      move=> [[[B s] b] i] [[[B' s'] b'] i'] /in_product [Hl _] /in_product [Hl' _]. rewrite /leg_op /= in Hl Hl'. rewrite /shift /leg_space /leg_cre /= => -[-> -> ->]. have -> : B = 0%N by lia. have -> // : B' = 0%N by lia.
    - move=> phi v. rewrite blk_shift !List.map_map => E.
      have Ag l : In l L0 -> phi (op_index o l) = v (shift A l) by move=> Hl; exact: (@List.ext_in_map _ _ _ _ _ E l Hl).
      have Ac l : In l (op_cre_legs st [:: o] 0) -> In l L0 by rewrite /L0 /product_legs /= List.app_nil_r => Hl; apply: List.in_or_app; left.
      have Aa l : In l (op_ann_legs st [:: o] 0) -> In l L0 by rewrite /L0 /product_legs /= List.app_nil_r => Hl; apply: List.in_or_app; right; apply/List.in_rev; rewrite List.rev_involutive.
      rewrite /value_at /op_as_term /= big_cons big_nil mulr1 /elem_at /tel /= (cre_shift st ops A) (ann_shift st ops A) -/o !List.map_map. congr (T _ _ _ _ *: W _).
      + apply: List.map_ext_in => l Hl. by rewrite /orb_of Ag //; apply: Ac.
      + apply: List.map_ext_in => l Hl. by rewrite /orb_of Ag //; apply: Aa.
      + rewrite /word List.map_map. apply: List.map_ext_in => l Hl. by rewrite /orb_of /= Ag.
  Qed.
End OpValue.
