(** Canonical order of commuting products; the numerical factor of an operator. *)
From Coq Require Import ZArith QArith List Bool Ascii Lia Permutation Sorted.
From Verif Require Import Res PartitionsModel RegistryModel RegistryProofs CoreModel OrderProofs CombinatoricsModel CombinatoricsProofs
  RationalModel RationalSpec RationalProofs AlgebraModel AlgebraSpec AlgebraProofs
  SortModel SortSpec SortProofs OperatorModel OperatorSpec OperatorProofs.
Import ListNotations.
Local Open Scope Z_scope.

Lemma settled_ordered st p : all_commute st p -> settledp st p -> ordered oper_ltb p.
Proof.
  unfold ordered. intros C S. apply Sorted_StronglySorted.
  - intros a b c H1 H2. eapply (nlt_trans _ _ swo_oper); eauto.
  - induction p as [|a p IH]; [constructor|]. constructor.
    + apply IH; [intros x y Hx Hy; apply C; right; assumption|]. intros l1 x y l2 ->. apply (S (a :: l1) x y l2). reflexivity.
    + destruct p as [|b p]; constructor. specialize (S [] a b p eq_refl). unfold op_ncless in S.
      rewrite C in S; [exact S|right; left; reflexivity|left; reflexivity].
Qed.
Lemma canonical_sorted st p p' s : all_commute st p -> oprod_canonicalize st p = (p', s) -> p' = sort_by oper_ltb p.
Proof.
  intros C E. pose proof (canonicalize_swaps st p p' s E) as W. apply cs_perm in W.
  apply (sort_unique _ _ swo_oper); [intros a b; apply oper_eqb_eq| |exact W].
  apply (settled_ordered st); [|eapply canonicalize_settled; exact E].
  intros a b Ha Hb. apply C; apply (Permutation_in _ (Permutation_sym W)); assumption.
Qed.
Lemma canonical_unique st p q p' q' s t : all_commute st p -> Permutation p q ->
  oprod_canonicalize st p = (p', s) -> oprod_canonicalize st q = (q', t) -> p' = q' /\ ordered oper_ltb p'.
Proof.
  intros C P Ep Eq. assert (C' : all_commute st q) by (intros a b Ha Hb; apply C; apply (Permutation_in _ (Permutation_sym P)); assumption).
  pose proof (canonical_sorted st p p' s C Ep) as Hp. pose proof (canonical_sorted st q q' t C' Eq) as Hq.
  assert (O : ordered oper_ltb p') by (subst p'; apply (sort_by_ordered _ _ swo_oper)).
  split; [|exact O]. subst q'. apply (sort_unique _ _ swo_oper); [intros a b; apply oper_eqb_eq|exact O|].
  rewrite <- P. eapply cs_perm. eapply canonicalize_swaps. exact Ep.
Qed.

(** Two exchanges of the same two words differ by a sign; with an even number of legs everywhere the sign is 1. *)
Lemma cs_even st p s q : (forall a, In a p -> Z.even (op_num a) = true) -> com_swaps st p s q -> s = 1.
Proof.
  intros H W. induction W as [p|l1 a b l2 s p' C W IH]; [reflexivity|].
  rewrite IH by (intros x Hx; apply H; apply in_app_or in Hx; apply in_or_app; destruct Hx as [Hx|[<-|[<-|Hx]]]; simpl; auto).
  unfold nsign. rewrite Z.even_mul, (H a) by (apply in_or_app; right; left; reflexivity). reflexivity.
Qed.

(** ** Factor *)
Lemma zfact_pos n : 0 < factorial n.
Proof.
  destruct (Z.le_gt_cases n 1); [rewrite factorial_neg by assumption; lia|].
  rewrite <- (Z2Nat.id n) by lia. rewrite factorial_fact. pose proof (lt_O_fact (Z.to_nat n)). lia.
Qed.
Lemma div_fold (f : Z -> Z) l r : canonical r -> (forall s, 0 < f s) ->
  canonical (fold_left (fun r s => rat_div r (rat_of_Z (f s))) l r) /\
  (Qval (fold_left (fun r s => rat_div r (rat_of_Z (f s))) l r) * inject_Z (zprod (map f l)) == Qval r)%Q.
Proof.
  intros C F. revert r C. induction l as [|s l IH]; intros r C; cbn [fold_left map zprod fold_right].
  - split; [exact C|]. change (inject_Z 1) with 1%Q. ring.
  - assert (C' : canonical (rat_div r (rat_of_Z (f s)))).
    { apply rat_div_canonical; [exact C|apply rat_of_Z_canonical|]. apply F. }
    destruct (IH _ C') as [A B]. split; [exact A|]. fold (zprod (map f l)). rewrite inject_Z_mult.
    rewrite (Qmult_comm (inject_Z (f s))), Qmult_assoc, B, rat_div_val.
    + rewrite rat_of_Z_val. field. apply inject_Z_nz. specialize (F s). lia.
    + apply canonical_den; exact C.
    + apply canonical_den. apply rat_of_Z_canonical.
    + simpl. specialize (F s). lia.
Qed.
Lemma op_factor_val st o : canonical (op_factor st o) /\
  (Qval (op_factor st o) * inject_Z (zprod (map (fun s => factorial (cre_of (op_gm o) s)) (range (num_spaces st)))
     * zprod (map (fun s => factorial (ann_of (op_gm o) s)) (range (num_spaces st)))) == 1)%Q.
Proof.
  unfold op_factor. cbv zeta.
  destruct (div_fold (fun s => factorial (cre_of (op_gm o) s)) (range (num_spaces st)) (rat_of_Z 1)) as [C1 V1];
    [apply rat_of_Z_canonical|intros s; apply zfact_pos|].
  destruct (div_fold (fun s => factorial (ann_of (op_gm o) s)) (range (num_spaces st)) _ C1) as [C2 V2]; [intros s; apply zfact_pos|].
  split; [exact C2|]. rewrite inject_Z_mult, (Qmult_comm (inject_Z (zprod _))), Qmult_assoc. rewrite V2, V1. apply rat_of_Z_val.
Qed.

Lemma ops_commute_iff st a b : nonneg_counts st a -> nonneg_counts st b -> ops_commute st a b = true <-> no_shared_legs st a b.
Proof.
  intros Na Nb. unfold ops_commute, no_shared_legs. rewrite Z.eqb_eq.
  assert (G : forall l n, 0 <= n -> (forall s, In s l -> 0 <= s < num_spaces st) ->
    (fold_left (fun n s => n + (ann_of (op_gm a) s * cre_of (op_gm b) s + cre_of (op_gm a) s * ann_of (op_gm b) s)) l n = 0 <->
     n = 0 /\ forall s, In s l -> (cre_of (op_gm a) s = 0 \/ ann_of (op_gm b) s = 0) /\ (ann_of (op_gm a) s = 0 \/ cre_of (op_gm b) s = 0))).
  { induction l as [|s l IH]; intros n Hn Hl; cbn [fold_left].
    - split; [intros H; split; [exact H|intros s []]|tauto].
    - destruct (Na s (Hl s (or_introl eq_refl))), (Nb s (Hl s (or_introl eq_refl))).
      rewrite IH; [|nia|intros s' Hs'; apply Hl; right; exact Hs']. split.
      + intros [H3 H4]. assert (E1 : ann_of (op_gm a) s * cre_of (op_gm b) s = 0) by nia. assert (E2 : cre_of (op_gm a) s * ann_of (op_gm b) s = 0) by nia.
        apply Z.mul_eq_0 in E1. apply Z.mul_eq_0 in E2. split; [nia|]. intros s' [<-|Hs']; [tauto|auto].
      + intros [-> H3]. split; [|intros s' Hs'; apply H3; right; exact Hs']. destruct (H3 s (or_introl eq_refl)) as [[E1|E1] [E2|E2]]; rewrite E1, E2; ring. }
  rewrite G; [|lia|].
  - split; [intros [_ H] s Hs; apply H|intros H; split; [reflexivity|intros s Hs; apply H]].
    + rewrite range_spaces. apply in_map_iff. exists (Z.to_nat s). unfold num_spaces in Hs. split; [lia|apply in_seq; lia].
    + rewrite range_spaces in Hs. apply in_map_iff in Hs as (i & <- & Hi). apply in_seq in Hi. unfold num_spaces. lia.
  - intros s Hs. rewrite range_spaces in Hs. apply in_map_iff in Hs as (i & <- & Hi). apply in_seq in Hi. unfold num_spaces. lia.
Qed.
