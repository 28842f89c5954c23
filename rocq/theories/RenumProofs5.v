(** C78: sums, products, commutators and BCH series of sums that are the same up to the numbering are the same. *)
From Coq Require Import Ascii ZArith QArith List Bool Permutation Lia.
From Verif Require Import Res PartitionsModel RationalModel RationalSpec RationalProofs RegistryModel RegistryProofs CoreModel OrderProofs AlgebraModel AlgebraSpec AlgebraProofs AlgebraProofs2 OperatorModel OperatorSpec OperatorProofs OperatorProofs2
  WickSearchModel WickSearchSpec WickCombProofs LadderSpec RenumSpec RenumProofs3 RenumProofs4.
Import ListNotations.
Local Open Scope Z_scope.
Lemma wf_nodup (m : opexpr) : msorted oprod_ltb m -> NoDup (map fst m).
Proof.
  induction m as [|x m IH]; intros S; [constructor|]. inversion_clear S as [|? ? S' F]. constructor; [|exact (IH S')]. intros I. apply in_map_iff in I. destruct I as (y & Ey & Hy).
  rewrite Forall_forall in F. specialize (F y Hy). cbn beta in F. rewrite Ey in F. destruct (swo_eq _ _ swo_oprod (fst x) (fst x)) as [Q _]. rewrite (proj1 (Q (swo_eqrefl _ _ swo_oprod _))) in F. discriminate.
Qed.
Lemma respects_any (P : oprod -> Prop) g : respects oprod_eqb P g.
Proof. intros k k' _ _ X. apply oprod_eqb_eq in X. subst. reflexivity. Qed.
Lemma lsum_perm (g : oprod -> Q) (m m' : list (oprod * rational)) : Permutation m m' -> (lsum g m == lsum g m')%Q.
Proof. induction 1; simpl; [reflexivity|rewrite IHPermutation; reflexivity|ring|etransitivity; eassumption]. Qed.
Section Rel.
  Variables (st st' : osi) (pi : Z -> Z).
  Hypothesis R : renumbering st st' pi.
  Hypothesis Hn : (nsp st <= max_spaces)%nat.
  Lemma nsp_same : nsp st' = nsp st.
  Proof. apply Nat2Z.inj. exact (ren_num R). Qed.
  Lemma Hn' : (nsp st' <= max_spaces)%nat. Proof. rewrite nsp_same. exact Hn. Qed.
  (** The operator with the numbers of [st']. *)
  Definition ren_gm (g : gmat) : gmat := map (fun i => if (i <? nsp st')%nat then (cre_of g (pi (Z.of_nat i)), ann_of g (pi (Z.of_nat i))) else (0, 0)) (seq 0 max_spaces).
  Definition ren_op (o : oper) : oper := mkOp (op_label o) (ren_gm (op_gm o)).
  Definition ren_prod (k : oprod) : oprod := map ren_op k.
  Lemma ren_nthp g i : (i < max_spaces)%nat -> nth_error (ren_gm g) i = Some (if (i <? nsp st')%nat then (cre_of g (pi (Z.of_nat i)), ann_of g (pi (Z.of_nat i))) else (0, 0)).
  Proof.
    intros H. unfold ren_gm. erewrite map_nth_error; [reflexivity|]. rewrite (nth_error_nth' _ 0%nat); [|rewrite seq_length; exact H]. rewrite seq_nth; [reflexivity|exact H].
  Qed.
  Lemma ren_valid g : gm_valid st' (ren_gm g).
  Proof.
    split; [unfold ren_gm; rewrite map_length, seq_length; reflexivity|]. intros i [H1 H2]. rewrite ren_nthp by exact H2. destruct (Nat.ltb_spec i (nsp st')); [lia|reflexivity].
  Qed.
  Lemma ren_same o : same_oper st' pi o (ren_op o).
  Proof.
    split; [reflexivity|]. intros s Hs. assert (N := Hn'). assert (E : num_spaces st' = Z.of_nat (nsp st')) by reflexivity. unfold registered in Hs. cbn [ren_op op_gm].
    assert (Hi : (Z.to_nat s < nsp st')%nat) by lia. replace s with (Z.of_nat (Z.to_nat s)) at 1 3 by lia. rewrite cre_of_nat, ann_of_nat, (nthp_of _ _ _ (ren_nthp (op_gm o) (Z.to_nat s) (Nat.lt_le_trans _ _ _ Hi N))).
    destruct (Nat.ltb_spec (Z.to_nat s) (nsp st')) as [_|X]; [|lia]. cbn [fst snd]. rewrite Z2Nat.id by lia. split; reflexivity.
  Qed.
  Lemma ren_prod_same k : same_product st' pi k (ren_prod k).
  Proof. induction k; constructor; [apply ren_same|assumption]. Qed.
  Lemma ren_ok k : ops_ok st k -> ops_ok st' (ren_prod k).
  Proof.
    intros (_ & V). split; [exact Hn'|]. induction V as [|o k (Vo & No) _ IH]; constructor; [|exact IH]. split; [apply ren_valid|]. intros s Hs. destruct (proj2 (ren_same o) s Hs) as [-> ->]. apply No. exact (ren_reg R Hs).
  Qed.
  Lemma same_ren k k' : ops_ok st k -> ops_ok st' k' -> same_product st' pi k k' -> k' = ren_prod k.
  Proof.
    intros (_ & V) (_ & V') H. induction H as [|o o' k k' (L & S) H IH]; [reflexivity|]. inversion_clear V as [|? ? Vo V1]. inversion_clear V' as [|? ? Vo' V1']. cbn [ren_prod map]. f_equal; [|apply IH; auto].
    destruct o' as [l' g']. cbn [op_label op_gm] in *. unfold ren_op. rewrite <- L. f_equal. apply (gm_valid_ext st'); [apply Vo'|apply ren_valid|exact Hn'|]. intros s Hs.
    destruct (S s Hs) as [-> ->]. destruct (proj2 (ren_same o) s Hs) as [E1 E2]. cbn [ren_op op_gm] in E1, E2. rewrite E1, E2. split; reflexivity.
  Qed.
  Lemma ren_prod_inj k1 k2 : ops_ok st k1 -> ops_ok st k2 -> ren_prod k1 = ren_prod k2 -> k1 = k2.
  Proof.
    intros (_ & V1) (_ & V2) E. revert k2 V2 E. induction V1 as [|o k Vo V IH]; intros [|o2 k2] V2 E; try discriminate; [reflexivity|]. inversion_clear V2 as [|? ? Vo2 V2'].
    assert (X : ren_op o = ren_op o2) by (exact (f_equal (hd (ren_op o)) E)). assert (E3 : ren_prod k = ren_prod k2) by (exact (f_equal (@tl oper) E)). f_equal; [|exact (IH _ V2' E3)]. assert (O : ops_ok st [o]) by (split; [exact Hn|constructor; auto]). assert (O2 : ops_ok st [o2]) by (split; [exact Hn|constructor; auto]).
    apply (proj2 (same_iff st st' pi o o2 _ _ R O O2 (ren_ok _ O) (ren_ok _ O2) (ren_same o) (ren_same o2))). exact X.
  Qed.
  Lemma ren_prod_app a b : ren_prod (a ++ b) = ren_prod a ++ ren_prod b.
  Proof. apply map_app. Qed.
  Lemma ops_ok_app (s : osi) a b : ops_ok s a -> ops_ok s b -> ops_ok s (a ++ b).
  Proof. intros (H & A) (_ & B). split; [exact H|]. apply Forall_app. auto. Qed.

  Record rel (e e' : opexpr) : Prop := {
    rel_wf : wf oprod_ltb e; rel_wf' : wf oprod_ltb e'; rel_keys : keysP (ops_ok st) e; rel_keys' : keysP (ops_ok st') e';
    rel_sum : forall g : oprod -> Q, (lsum g e' == lsum (fun k => g (ren_prod k)) e)%Q }.
  Lemma rel_coef e e' k : rel e e' -> ops_ok st k -> (coef oprod_eqb e' (ren_prod k) == coef oprod_eqb e k)%Q.
  Proof.
    intros H Hk. unfold coef. rewrite (rel_sum _ _ H). apply lsum_ext_in. intros x Hx. unfold ind.
    assert (Kx := rel_keys _ _ H). unfold keysP in Kx. rewrite Forall_forall in Kx. specialize (Kx x Hx).
    destruct (oprod_eqb (fst x) k) eqn:E; destruct (oprod_eqb (ren_prod (fst x)) (ren_prod k)) eqn:E'; try reflexivity.
    - apply oprod_eqb_eq in E. rewrite E in E'. rewrite (proj2 (oprod_eqb_eq _ _) eq_refl) in E'. discriminate.
    - apply oprod_eqb_eq in E'. apply (ren_prod_inj _ _ Kx Hk) in E'. rewrite E' in E. rewrite (proj2 (oprod_eqb_eq _ _) eq_refl) in E. discriminate.
  Qed.
  Lemma rel_same e e' : rel e e' -> same_sum st' pi e e'.
  Proof.
    intros H. destruct (rel_wf _ _ H) as (Se & Ce & Ne). destruct (rel_wf' _ _ H) as (Se' & Ce' & Ne'). assert (Ke := rel_keys _ _ H). assert (Ke' := rel_keys' _ _ H).
    unfold mcanon, mnz, keysP in *. rewrite Forall_forall in Ce, Ce', Ne, Ne', Ke, Ke'. exists (map (fun x => (ren_prod (fst x), snd x)) e). split.
    - apply NoDup_Permutation.
      + assert (G : forall l, incl l e -> NoDup (map fst l) -> NoDup (map (fun x : oprod * rational => (ren_prod (fst x), snd x)) l)).
        { induction l as [|[k c] l IH]; intros Hl Nd; [constructor|]. cbn [map fst] in Nd. inversion_clear Nd as [|? ? Nk Nd']. constructor; [|apply IH; [intros y Hy; apply Hl; right; exact Hy|exact Nd']].
          intros I. apply in_map_iff in I. destruct I as ([k2 c2] & E & Hk2). cbn [fst snd] in E. injection E as Ek _. apply Nk. apply in_map_iff. exists (k2, c2). split; [|exact Hk2]. cbn [fst].
          exact (ren_prod_inj _ _ (Ke _ (Hl _ (or_intror Hk2))) (Ke _ (Hl _ (or_introl eq_refl))) Ek). }
        apply G; [apply incl_refl|apply wf_nodup, Se].
      + apply (NoDup_map_inv fst). apply wf_nodup, Se'.
      + assert (F : forall k c, In (k, c) e -> In (ren_prod k, c) e').
        { intros k c Hk. assert (Q : (coef oprod_eqb e' (ren_prod k) == Qval c)%Q) by (rewrite (rel_coef _ _ _ H (Ke _ Hk)); exact (coef_in _ _ swo_oprod _ _ e Se Hk)).
          destruct (coef_nonzero e' (ren_prod k)) as (c2 & H2). { rewrite Q. exact (Ne _ Hk). }
          replace c with c2; [exact H2|]. apply canonical_val_inj; [exact (Ce' _ H2)|exact (Ce _ Hk)|]. rewrite <- Q. symmetry. exact (coef_in _ _ swo_oprod _ _ e' Se' H2). }
        intros [k' c']. split.
        * intros I. apply in_map_iff in I. destruct I as ([k c] & E & Hk). cbn [fst snd] in E. injection E as <- <-. exact (F _ _ Hk).
        * intros Hk. assert (X : exists x, In x e /\ ren_prod (fst x) = k').
          { destruct (Exists_dec (fun x : oprod * rational => ren_prod (fst x) = k') e) as [X|X].
            - intros x. destruct (oprod_eqb (ren_prod (fst x)) k') eqn:E; [left; apply oprod_eqb_eq, E|right; intros <-; rewrite (proj2 (oprod_eqb_eq _ _) eq_refl) in E; discriminate].
            - apply Exists_exists in X. destruct X as (x & Hx & E). exists x. auto.
            - exfalso. apply (Ne' _ Hk). cbn [snd]. rewrite <- (coef_in _ _ swo_oprod _ _ e' Se' Hk). unfold coef. rewrite (rel_sum _ _ H). apply lsum_0. intros x Hx. unfold ind.
              destruct (oprod_eqb (ren_prod (fst x)) k') eqn:E; [|reflexivity]. exfalso. apply X. apply Exists_exists. exists x. split; [exact Hx|apply oprod_eqb_eq, E]. }
          destruct X as ([k c] & Hx & <-). apply in_map_iff. exists (k, c). split; [|exact Hx]. cbn [fst snd]. f_equal. cbn [fst] in Hk. assert (H2 := F _ _ Hx).
          apply canonical_val_inj; [exact (Ce _ Hx)|exact (Ce' _ Hk)|]. rewrite <- (coef_in _ _ swo_oprod _ _ e' Se' H2). exact (coef_in _ _ swo_oprod _ _ e' Se' Hk).
    - assert (G : forall l : opexpr, Forall2 (fun x y => same_product st' pi (fst x) (fst y) /\ snd x = snd y) l (map (fun x => (ren_prod (fst x), snd x)) l)).
      { induction l as [|[k c] l IH]; constructor; [|exact IH]. split; [apply ren_prod_same|reflexivity]. }
      apply G.
  Qed.
  Lemma same_rel e e' : wf oprod_ltb e -> wf oprod_ltb e' -> keysP (ops_ok st) e -> keysP (ops_ok st') e' -> same_sum st' pi e e' -> rel e e'.
  Proof.
    intros W W' Ke Ke' (e1 & P & F). constructor; auto. intros g. rewrite <- (lsum_perm g _ _ P). assert (K1 : keysP (ops_ok st') e1) by (unfold keysP in *; apply (Permutation_Forall (Permutation_sym P)), Ke').
    clear P W W' Ke'. induction F as [|x y e e1 (S & C) F IH]; [reflexivity|]. unfold keysP in *. inversion_clear Ke as [|? ? Kx Ke2]. inversion_clear K1 as [|? ? Ky K2]. cbn [lsum fold_right].
    fold (lsum g e1). fold (lsum (fun k => g (ren_prod k)) e). rewrite (IH Ke2 K2), C, (same_ren _ _ Kx Ky S). reflexivity.
  Qed.
  Let mg e (H : wf oprod_ltb e) : mgood e. Proof. apply mcanon_good, H. Qed.
  Lemma rel_plus a a' b b' : rel a a' -> rel b b' -> rel (mplus oprod_ltb a b) (mplus oprod_ltb a' b').
  Proof.
    intros [Wa Wa' Ka Ka' La] [Wb Wb' Kb Kb' Lb]. constructor.
    - apply (wf_mplus _ _ swo_oprod); [exact Wa|apply Wb]. - apply (wf_mplus _ _ swo_oprod); [exact Wa'|apply Wb']. - apply keysP_mplus; auto. - apply keysP_mplus; auto.
    - intros g. rewrite (lsum_mplus _ _ swo_oprod _ g a' b' (respects_any _ g) Ka' Kb' (mg _ Wa') (mg _ Wb')), (lsum_mplus _ _ swo_oprod _ (fun k => g (ren_prod k)) a b (respects_any _ _) Ka Kb (mg _ Wa) (mg _ Wb)), La, Lb. reflexivity.
  Qed.
  Lemma rel_minus a a' b b' : rel a a' -> rel b b' -> rel (mminus oprod_ltb a b) (mminus oprod_ltb a' b').
  Proof.
    intros [Wa Wa' Ka Ka' La] [Wb Wb' Kb Kb' Lb]. constructor.
    - apply (wf_mminus _ _ swo_oprod); [exact Wa|apply Wb]. - apply (wf_mminus _ _ swo_oprod); [exact Wa'|apply Wb']. - apply keysP_mminus; auto. - apply keysP_mminus; auto.
    - intros g. rewrite (lsum_mminus _ _ swo_oprod _ g a' b' (respects_any _ g) Ka' Kb' (mg _ Wa') (mg _ Wb')), (lsum_mminus _ _ swo_oprod _ (fun k => g (ren_prod k)) a b (respects_any _ _) Ka Kb (mg _ Wa) (mg _ Wb)), La, Lb. reflexivity.
  Qed.
  Lemma rel_scale a a' c : canonical c -> ~ (Qval c == 0)%Q -> rel a a' -> rel (mscale a c) (mscale a' c).
  Proof.
    intros Cc Nc [Wa Wa' Ka Ka' La]. assert (D : den c <> 0) by (apply canonical_den, Cc). constructor.
    - apply wf_mscale; auto. - apply wf_mscale; auto. - apply keysP_mscale; auto. - apply keysP_mscale; auto.
    - intros g. rewrite (lsum_mscale g a' c (mg _ Wa') D), (lsum_mscale _ a c (mg _ Wa) D), La. reflexivity.
  Qed.
  Lemma rel_times a a' b b' : rel a a' -> rel b b' -> exists r r', mprod oprod_ltb oprod_mul a b = Ok r /\ mprod oprod_ltb oprod_mul a' b' = Ok r' /\ rel r r'.
  Proof.
    intros [Wa Wa' Ka Ka' La] [Wb Wb' Kb Kb' Lb].
    assert (M : forall s, mul_ok oprod_eqb (ops_ok s) oprod_mul).
    { intros s. unfold oprod_mul. split.
      - intros a0 b0 A B. eexists. split; [reflexivity|apply ops_ok_app; assumption].
      - intros a0 b0 a0' b0' k k' _ _ _ _ E1 E2 [= <-] [= <-]. apply oprod_eqb_eq in E1. apply oprod_eqb_eq in E2. subst. apply oprod_eqb_eq. reflexivity.
      - intros a0 b0 c ab bc x y _ _ _ [= <-] [= <-] [= <-] [= <-]. rewrite app_assoc. apply oprod_eqb_eq. reflexivity. }
    destruct (mprod_spec oprod_ltb oprod_eqb swo_oprod _ oprod_mul (M st) a b Wa Wb Ka Kb) as (r & E & W & Kr & L).
    destruct (mprod_spec oprod_ltb oprod_eqb swo_oprod _ oprod_mul (M st') a' b' Wa' Wb' Ka' Kb') as (r' & E' & W' & Kr' & L').
    exists r, r'. split; [exact E|]. split; [exact E'|]. constructor; auto. intros g. rewrite (L' g (respects_any _ g)), (L _ (respects_any _ (fun k => g (ren_prod k)))), La. apply lsum_ext. intros k1. rewrite Lb. apply lsum_ext. intros k2.
    unfold mulg, oprod_mul. rewrite ren_prod_app. reflexivity.
  Qed.
  Lemma rel_commutator a a' b b' : rel a a' -> rel b b' -> exists r r', op_commutator a b = Ok r /\ op_commutator a' b' = Ok r' /\ rel r r'.
  Proof.
    intros A B. destruct (rel_times _ _ _ _ A B) as (r & r' & E & E' & H). destruct (rel_times _ _ _ _ B A) as (q & q' & F & F' & I). unfold op_commutator. rewrite E, E', F, F'. cbn [bind].
    eexists. eexists. split; [reflexivity|]. split; [reflexivity|]. exact (rel_minus _ _ _ _ H I).
  Qed.
  Lemma rel_bch_loop n : forall k t t' b b' r r', 1 <= k -> rel t t' -> rel b b' -> rel r r' -> exists s s', bch_loop n k t b r = Ok s /\ bch_loop n k t' b' r' = Ok s' /\ rel s s'.
  Proof.
    induction n as [|n IH]; intros k t t' b b' r r' Hk Ht Hb Hr; [exists r, r'; auto|]. cbn [bch_loop]. destruct (rel_commutator _ _ _ _ Ht Hb) as (c & c' & -> & -> & Hc). cbn [bind].
    assert (Hs : rel (mscale c (rat_make 1 k)) (mscale c' (rat_make 1 k))). { apply rel_scale; [apply rat_make_canonical; lia| |exact Hc]. rewrite rat_make_val by lia. intros X. unfold Qeq, Qdiv, Qmult, Qinv in X. destruct k; simpl in X; lia. }
    apply IH; [lia|exact Hs|exact Hb|]. apply rel_plus; assumption.
  Qed.
  Lemma rel_nil : rel [] [].
  Proof. constructor; try (apply wf_nil); try constructor. Qed.
  Lemma rel_bch a a' b b' n : rel a a' -> rel b b' -> exists r r', bch_series a b n = Ok r /\ bch_series a' b' n = Ok r' /\ rel r r'.
  Proof. intros A B. apply rel_bch_loop; auto; [lia|]. apply rel_plus; [exact rel_nil|exact A]. Qed.
End Rel.
Lemma same_opexpr_rel st st' pi e e' : renumbering st st' pi -> (nsp st <= max_spaces)%nat -> same_opexpr st st' pi e e' -> rel st st' pi e e'.
Proof.
  intros R Hn (W & W' & K & K' & S). apply same_rel; auto; unfold keysP; rewrite Forall_forall; assumption.
Qed.
Lemma rel_same_opexpr st st' pi e e' : renumbering st st' pi -> (nsp st <= max_spaces)%nat -> rel st st' pi e e' -> same_opexpr st st' pi e e'.
Proof.
  intros R Hn H. assert (K := rel_keys _ _ _ _ _ H). assert (K' := rel_keys' _ _ _ _ _ H). unfold keysP in *. rewrite Forall_forall in K, K'.
  split; [apply H|]. split; [apply H|]. split; [exact K|]. split; [exact K'|]. eapply rel_same; eauto.
Qed.
Theorem renum_algebra st st' pi a a' b b' : renumbering st st' pi -> (nsp st <= max_spaces)%nat -> same_opexpr st st' pi a a' -> same_opexpr st st' pi b b' ->
  same_opexpr st st' pi (mplus oprod_ltb a b) (mplus oprod_ltb a' b') /\ same_opexpr st st' pi (mminus oprod_ltb a b) (mminus oprod_ltb a' b') /\
  (forall c, canonical c -> ~ (Qval c == 0)%Q -> same_opexpr st st' pi (mscale a c) (mscale a' c)) /\
  (exists r r', mprod oprod_ltb oprod_mul a b = Ok r /\ mprod oprod_ltb oprod_mul a' b' = Ok r' /\ same_opexpr st st' pi r r') /\
  (exists r r', op_commutator a b = Ok r /\ op_commutator a' b' = Ok r' /\ same_opexpr st st' pi r r') /\
  (forall n, exists r r', bch_series a b n = Ok r /\ bch_series a' b' n = Ok r' /\ same_opexpr st st' pi r r').
Proof.
  intros R Hn A B. apply (same_opexpr_rel _ _ _ _ _ R Hn) in A. apply (same_opexpr_rel _ _ _ _ _ R Hn) in B. assert (S := fun e e' => rel_same_opexpr st st' pi e e' R Hn).
  split; [apply S; apply rel_plus; auto|]. split; [apply S; apply rel_minus; auto|]. split; [intros c C N; apply S; apply rel_scale; auto|].
  split; [destruct (rel_times _ _ _ _ _ _ _ A B) as (r & r' & E & E' & H); exists r, r'; auto|]. split; [destruct (rel_commutator _ _ _ _ _ _ _ A B) as (r & r' & E & E' & H); exists r, r'; auto|].
  intros n. assert (X : exists r r', bch_series a b n = Ok r /\ bch_series a' b' n = Ok r' /\ rel st st' pi r r') by (eapply rel_bch; eauto).
  destruct X as (r & r' & E & E' & H). exists r, r'. auto.
Qed.
