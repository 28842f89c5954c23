(** The evaluation of pair contractions in terms of the contracted pairs of legs. *)
From Coq Require Import ZArith List Bool Arith Lia Permutation.
From Verif Require Import Res RegistryModel CoreModel AdjointModel OperatorModel OperatorSpec OperatorProofs SortSpec SortProofs WickSearchModel WickSearchSpec CountSpec CountProofs WickCombSpec WickCombProofs WickElemProofs WickLegSpec WickLegProofs WickPairProofs.
Import ListNotations.
Local Open Scope Z_scope.

Definition unpair (ps : list (leg * leg)) : list leg := flat_map (fun p => [fst p; snd p]) ps.
Section Eval.
  Variables (st : osi) (ops : oprod) (maxc : Z).
  Hypothesis Hok : ops_ok st ops.
  Hypothesis Hg : no_general st.
  Notation n := (length ops).
  Definition pair_for (p : leg * leg) (c : econ) : Prop := pair_ok st ops (fst p) (snd p) /\ c = econ_of n [fst p; snd p].

  Lemma pick_pair L ix pc pa e c : allowed st maxc ops c -> (forall l, In l (pc ++ pa) -> is_leg st ops l) -> carries_out st n (pc ++ pa) c ->
    Forall (fun l => leg_cre l = true) pc -> Forall (fun l => leg_cre l = false) pa -> contribution st L ix pc pa e ->
    exists p, pair_for p c /\ fst e = ([(ix (snd p), ix (fst p))], []) /\ sperm (pc ++ pa) (snd e) [fst p; snd p].
  Proof.
    intros Al Hl C Fc Fa Co. destruct (allowed_pair st ops Hok Hg maxc c _ Al Hl C) as (x & y & P & Po & Ec).
    assert (G : forall p, In p (pc ++ pa) -> stype st (leg_space p) <> Some General). { intros p Hp E. destruct (Hl p Hp) as (_ & Hs & _). destruct (Hg _ Hs); congruence. }
    destruct Co as [p q T|p q T|p q T Pr|p q T Pr|p pc pa k T _ _ _]; try (exfalso; apply (G p); [left; auto|exact T]).
    - inversion Fc; subst. inversion Fa; subst. cbn [app] in *. destruct (Permutation_length_2 P) as [[<- <-]|[<- <-]].
      + exists (p, q). split; [split; auto|]. split; [reflexivity|]. apply sp_refl.
      + exfalso. destruct Po as (_ & _ & Es & _ & [(T' & Cx & Cy)|(T' & Cx & Cy)]); congruence.
    - inversion Fc; subst. inversion Fa; subst. cbn [app] in *. destruct (Permutation_length_2 P) as [[<- <-]|[<- <-]].
      + exfalso. destruct Po as (_ & _ & Es & _ & [(T' & Cx & Cy)|(T' & Cx & Cy)]); congruence.
      + exists (q, p). split; [split; auto|]. split; [reflexivity|]. apply (sp_swap [] p q [] 1). apply sp_refl.
  Qed.
  Lemma sperm_prefix {X} (l l' r : list X) s : sperm l s l' -> sperm (l ++ r) s (l' ++ r).
  Proof. induction 1 as [l|l1 x y l2 s l' H IH]; [apply sp_refl|]. rewrite <- app_assoc. simpl. apply sp_swap. rewrite <- app_assoc in IH. exact IH. Qed.
  Lemma sperm_suffix {X} (l0 l l' : list X) s : sperm l s l' -> sperm (l0 ++ l) s (l0 ++ l').
  Proof. intros H. induction l0 as [|x l0 IH]; simpl; auto. apply sperm_cons, IH. Qed.

  Lemma picks_pairs L ix cs : forall picks effects, Forall (allowed st maxc ops) cs ->
    Forall2 (fun p c => carries_out st n (fst p ++ snd p) c /\ Forall (fun l => leg_cre l = true) (fst p) /\ Forall (fun l => leg_cre l = false) (snd p)) picks cs ->
    Forall2 (fun p e => contribution st L ix (fst p) (snd p) e) picks effects -> (forall l, In l (flat_map (fun p => fst p ++ snd p) picks) -> is_leg st ops l) ->
    exists ps, Forall2 pair_for ps cs /\ flat_map (fun e => fst (fst e)) effects = map (fun p => (ix (snd p), ix (fst p))) ps /\ flat_map (fun e => snd (fst e)) effects = [] /\
      sperm (flat_map (fun p => fst p ++ snd p) picks) (fold_right Z.mul 1 (map snd effects)) (unpair ps).
  Proof.
    intros picks. revert cs. induction picks as [|[pc pa] picks IH]; intros cs effects Al F1 F2 Hl.
    - inversion F1; subst. inversion F2; subst. exists []. split; [constructor|]. split; [reflexivity|]. split; [reflexivity|]. apply sp_refl.
    - inversion F1 as [|? c ? cs' (C & Fc & Fa) F1']; subst. inversion F2 as [|? e ? es Co F2']; subst. cbn [fst snd] in *. inversion Al; subst.
      destruct (IH cs' es) as (ps & Q1 & Q2 & Q3 & Q4); auto. { intros l Hl'. apply Hl. cbn [flat_map fst snd]. apply in_or_app. auto. }
      destruct (pick_pair L ix pc pa e c) as (p & R1 & R2 & R3); auto. { intros l Hl'. apply Hl. cbn [flat_map fst snd]. apply in_or_app. auto. }
      exists (p :: ps). split; [constructor; auto|]. cbn [flat_map map]. split; [|split]. { destruct e as [[m ts] z]. cbn [fst snd] in R2 |- *. injection R2 as -> ->. cbn [app]. f_equal. exact Q2. } { destruct e as [[m ts] z]. cbn [fst snd] in R2 |- *. injection R2 as -> ->. exact Q3. }
      cbn [fold_right fst snd]. unfold unpair. cbn [flat_map]. fold (unpair ps).
      apply (sperm_trans _ _ _ _ _ (sperm_prefix _ _ (flat_map (fun p => fst p ++ snd p) picks) _ R3) (sperm_suffix [fst p; snd p] _ _ _ Q4)).
  Qed.
  Theorem evaluation_pairs cs t s ix picks effects rest : Forall (allowed st maxc ops) cs -> evaluation st ops cs t s ix picks effects rest ->
    exists ps, Forall2 pair_for ps cs /\ sperm (product_legs st ops) s (unpair ps ++ rest) /\
      t = term_reindex (map (fun p => (ix (snd p), ix (fst p))) ps) (mkTerm false (map (leg_sqop ix) rest) (map (op_tensor st ops ix) (seq 0 n))).
  Proof.
    intros Al [E1 E2 E3 (sg & Sp & Es) E5 E6]. assert (P := sperm_perm _ _ _ Sp).
    destruct (picks_pairs (product_legs st ops) ix cs picks effects Al E2 E3) as (ps & Q1 & Q2 & Q3 & Q4).
    { intros l Hl. apply (in_product st ops). apply (Permutation_in l (Permutation_sym P)). apply in_or_app. auto. }
    exists ps. split; [exact Q1|]. split.
    - rewrite Es, Z.mul_comm. apply (sperm_trans _ _ _ _ _ Sp (sperm_prefix _ _ rest _ Q4)).
    - rewrite E6, Q2, Q3, app_nil_r. reflexivity.
  Qed.
End Eval.
