(** C61: the ways to choose blocks are counted by the weights; every set of blocks belongs to exactly one contraction of the search. *)
From Coq Require Import ZArith List Bool Arith Lia Permutation Sorted.
From Verif Require Import Res RegistryModel CoreModel AdjointModel OperatorModel OperatorSpec OperatorProofs SortSpec SortProofs WickSearchModel WickSearchSpec CountSpec CountProofs WickCombSpec WickCombProofs WickElemProofs WickElemProofs2 WickCompProofs WickSearchProofs WickLegSpec WickLegProofs WickLegProofs3 WickLegProofs6 WickEvalModel WickPairProofs WickPairProofs2 WickPairProofs3 WickPairProofs4 WickGenProofs4.
Import ListNotations.
Local Open Scope Z_scope.

(** The elements of [b] in the order of [L]. *)
Definition ord (L b : list leg) : list leg := filter (fun l => if in_dec leg_dec l b then true else false) L.
Lemma ord_in L b l : In l (ord L b) <-> In l L /\ In l b.
Proof. unfold ord. rewrite filter_In. destruct (in_dec leg_dec l b); intuition congruence. Qed.
Lemma ord_sub L b : subseq (ord L b) L.
Proof. apply subseq_filter. Qed.
Lemma ord_perm L b : NoDup L -> NoDup b -> incl b L -> Permutation b (ord L b).
Proof.
  intros NL NB I. apply NoDup_Permutation; auto.
  - apply NoDup_filter, NL.
  - intros l. rewrite ord_in. split; [intros H; split; auto|tauto].
Qed.
Lemma ord_ext L b b' : (forall l, In l b <-> In l b') -> ord L b = ord L b'.
Proof. intros H. unfold ord. apply filter_ext. intros l. destruct (in_dec leg_dec l b) as [i|i], (in_dec leg_dec l b') as [j|j]; auto; exfalso; [apply j, H, i|apply i, H, j]. Qed.
Lemma ord_id L b : NoDup L -> subseq b L -> ord L b = b.
Proof.
  intros NL S. apply (subseq_unique _ _ L); auto; [apply ord_sub|]. intros l. rewrite ord_in. split; [tauto|]. intros H. split; auto. eapply subseq_in; eauto.
Qed.
Lemma perm_concat2 {X} (bs bs' : list (list X)) : Forall2 (@Permutation X) bs bs' -> Permutation (concat bs) (concat bs').
Proof. induction 1; simpl; auto. apply Permutation_app; auto. Qed.

Section Ways.
  Variables (st : osi) (ops : oprod) (maxc : Z).
  Hypothesis Hok : ops_ok st ops.
  Notation n := (length ops).
  Notation L := (product_legs st ops).
  Notation AL := (all_legs st ops).
  Notation ec := (econ_of n).
  Definition block_set (bs : list (list leg)) : Prop := (forall b, In b bs -> subseq b L /\ allowed st maxc ops (ec b)) /\ NoDup (concat bs).
  Lemma L_leg b l : subseq b L -> In l b -> is_leg st ops l.
  Proof. intros S H. apply (in_product st ops). eapply subseq_in; eauto. Qed.
  Lemma AL_leg b l : subseq b AL -> In l b -> is_leg st ops l.
  Proof. intros S H. apply in_all_legs. eapply subseq_in; eauto. Qed.
  Lemma in_L l : In l L <-> In l AL.
  Proof. rewrite in_all_legs. apply in_product. Qed.
  Lemma ord_AL_L b : subseq b L -> ord L (ord AL b) = b.
  Proof.
    intros S. rewrite <- (ord_id L b) at 2; auto; [|apply product_nodup]. apply ord_ext. intros l. rewrite ord_in. split; [tauto|]. intros H. split; auto. apply in_L. eapply subseq_in; eauto.
  Qed.
  Lemma ord_L_AL b : subseq b AL -> ord AL (ord L b) = b.
  Proof.
    intros S. rewrite <- (ord_id AL b) at 2; auto; [|apply legs_nodup]. apply ord_ext. intros l. rewrite ord_in. split; [tauto|]. intros H. split; auto. apply in_L. eapply subseq_in; eauto.
  Qed.
  Lemma perm_AL b : subseq b L -> Permutation b (ord AL b).
  Proof.
    intros S. apply ord_perm; [apply legs_nodup|eapply CountProofs.subseq_nodup; eauto; apply product_nodup|]. intros l Hl. apply in_L. eapply subseq_in; eauto.
  Qed.
  Lemma perm_L b : subseq b AL -> Permutation b (ord L b).
  Proof.
    intros S. apply ord_perm; [apply product_nodup|eapply CountProofs.subseq_nodup; eauto; apply legs_nodup|]. intros l Hl. apply in_L. eapply subseq_in; eauto.
  Qed.
  Lemma block_set_perm bs bs' : Permutation bs bs' -> block_set bs -> block_set bs'.
  Proof.
    intros P (A & B). split; [intros b Hb; apply A, (Permutation_in b (Permutation_sym P)), Hb|]. apply (Permutation_NoDup (perm_concat _ _ P)), B.
  Qed.
  Lemma realize_blocks bs : block_set bs -> realizes (carries_out st n) AL (map ec bs) (map (ord AL) bs).
  Proof.
    intros (H & ND). split; [|split].
    - clear ND. induction bs as [|b bs IH]; cbn [map]; [constructor|]. constructor.
      + rewrite (econ_of_perm n b (ord AL b)) by (apply perm_AL, H; left; auto). apply econ_of_carries, Hok.
      + apply IH. intros c Hc. apply H. right. auto.
    - apply Forall_forall. intros b Hb. apply in_map_iff in Hb. destruct Hb as (c & <- & _). apply ord_sub.
    - apply (Permutation_NoDup (l := concat bs)); auto. apply perm_concat2. clear ND. induction bs as [|b bs IH]; cbn [map]; constructor; [apply perm_AL, H; left; auto|]. apply IH. intros c Hc. apply H. right. auto.
  Qed.
  Lemma realized_blocks cs bs : Forall (allowed st maxc ops) cs -> realizes (carries_out st n) AL cs bs ->
    block_set (map (ord L) bs) /\ map ec (map (ord L) bs) = cs /\ map (ord AL) (map (ord L) bs) = bs.
  Proof.
    intros Al (F & S & ND). rewrite Forall_forall in S. assert (Hec : forall b c, In b bs -> allowed st maxc ops c -> carries_out st n b c -> ec (ord L b) = c).
    { intros b c Hb Ac Cc. rewrite <- (econ_of_perm n b) by (apply perm_L, S, Hb). symmetry. apply (carries_econ st n (proj1 Hok)); auto; [inversion Ac; auto|].
      intros l Hl. apply (AL_leg b l (S b Hb) Hl). }
    split; [split|split].
    - intros b Hb. apply in_map_iff in Hb. destruct Hb as (b0 & <- & Hb0). split; [apply ord_sub|]. destruct (Forall2_in_l _ _ _ _ F Hb0) as (c & Hc & Cc).
      rewrite Forall_forall in Al. rewrite (Hec b0 c); auto.
    - apply (Permutation_NoDup (l := concat bs)); auto. apply perm_concat2. clear - S. induction bs as [|b bs IH]; cbn [map]; constructor; [apply perm_L, S; left; auto|]. apply IH. intros c Hc. apply S. right. auto.
    - clear ND. induction F as [|b c bs cs Fc F IH]; [reflexivity|]. inversion Al; subst. cbn [map]. f_equal; [apply Hec; simpl; auto|]. apply IH; auto; [intros b' Hb'; apply S; right; auto|]. intros; apply Hec; simpl; auto.
    - rewrite map_map. rewrite <- (map_id bs) at 2. apply map_ext_in. intros b Hb. apply ord_L_AL, S, Hb.
  Qed.

  Variable ms : list (list (list leg)).
  Hypothesis M1 : forall bs, In bs ms -> block_set bs.
  Hypothesis M2 : forall bs, block_set bs -> exists m, In m ms /\ Permutation m bs.
  Hypothesis M3 : ForallOrdPairs (fun m m' => ~ Permutation m m') ms.
  Definition bmatches (cs : list econ) (bs : list (list leg)) : bool := permb (map ec bs) cs.
  Theorem ways_blocks cs : Forall (allowed st maxc ops) cs ->
    exists R, counts_ways (carries_out st n) AL cs R /\ length R = length (filter (bmatches cs) ms).
  Proof.
    intros Al.
    assert (X : forall l, (forall m, In m l -> In m ms /\ bmatches cs m = true) -> exists R, Forall2 (fun m bs => exists ps, Permutation m ps /\ map ec ps = cs /\ bs = map (ord AL) ps) l R).
    { induction l as [|m l IH]; intros H; [exists []; constructor|]. destruct IH as (R & F); [intros x Hx; apply H; right; auto|]. destruct (H m (or_introl eq_refl)) as (_ & E). apply permb_spec in E.
      apply Permutation_sym in E. destruct (Permutation_map_inv _ _ E) as (ps & Ep & Pp). exists (map (ord AL) ps :: R). constructor; auto. exists ps. auto. }
    destruct (X (filter (bmatches cs) ms)) as (R & F). { intros m Hm. apply filter_In in Hm. exact Hm. }
    exists R. split; [|clear - F; induction F; simpl; auto].
    assert (Y : forall bs, In bs R -> exists m ps, In m ms /\ Permutation m ps /\ map ec ps = cs /\ bs = map (ord AL) ps).
    { intros bs Hbs. destruct (Forall2_in_r _ _ _ _ F Hbs) as (m & Hm & ps & P & E1 & E2). exists m, ps. split; auto. apply filter_In in Hm. tauto. }
    split.
    - intros bs Hbs. destruct (Y bs Hbs) as (m & ps & Hm & P & <- & ->). apply realize_blocks. apply (block_set_perm _ _ P), M1, Hm.
    - intros cs' bs P Re. destruct (realized_blocks cs' bs) as (Po & E & Eb); auto; [eapply Forall_perm; eauto|]. destruct (M2 _ Po) as (m & Hm & Pm).
      assert (Hm' : In m (filter (bmatches cs) ms)). { apply filter_In. split; auto. apply permb_spec. apply (Permutation_trans (Permutation_map ec Pm)). rewrite E. apply Permutation_sym, P. }
      assert (exists bs', In bs' R /\ exists qs, Permutation m qs /\ bs' = map (ord AL) qs).
      { destruct (Forall2_in_l _ _ _ _ F Hm') as (b & Hb & qs & P' & _ & E2). exists b. split; eauto. }
      destruct H as (bs' & Hb' & qs & Pq & ->). exists (map (ord AL) qs). split; auto. rewrite <- Eb. apply Permutation_map. apply (Permutation_trans (Permutation_sym Pm) Pq).
    - assert (O : ForallOrdPairs (fun m m' => ~ Permutation m m') (filter (bmatches cs) ms)).
      { clear - M3. induction M3 as [|x l Fx O IH]; simpl; [constructor|]. destruct (bmatches cs x); auto. constructor; auto. rewrite Forall_forall in *. intros y Hy. apply filter_In in Hy. apply Fx. tauto. }
      assert (Inj : forall ps qs, block_set ps -> block_set qs -> Permutation (map (ord AL) ps) (map (ord AL) qs) -> Permutation ps qs).
      { assert (Z : forall ps, block_set ps -> map (ord L) (map (ord AL) ps) = ps).
        { intros ps (H & _). rewrite map_map. rewrite <- (map_id ps) at 2. apply map_ext_in. intros b Hb. apply ord_AL_L, H, Hb. }
        intros ps qs Hp Hq P. rewrite <- (Z ps Hp), <- (Z qs Hq). apply Permutation_map, P. }
      assert (W : forall m, In m (filter (bmatches cs) ms) -> block_set m) by (intros m Hm; apply filter_In in Hm; apply M1; tauto).
      revert W F O. generalize (filter (bmatches cs) ms). intros l W F O.
      clear - F O W Inj. induction F as [|m b l R (ps & P & _ & E) F IH]; [constructor|]. inversion O as [|? ? Fm O']; subst. constructor; [|apply IH; auto; intros; apply W; simpl; auto].
      assert (Wm := block_set_perm _ _ P (W m (or_introl eq_refl))). assert (Wl : forall m', In m' l -> block_set m') by (intros; apply W; simpl; auto).
      clear - F P Fm Wm Wl Inj. induction F as [|m' b l R (qs & Q & _ & ->) F IH]; [constructor|]. inversion Fm; subst. constructor; [|apply IH; auto; intros; apply Wl; simpl; auto].
      intros C. apply Inj in C; auto; [|apply (block_set_perm _ _ Q), Wl; simpl; auto]. apply H1. apply (Permutation_trans P), (Permutation_trans C), Permutation_sym, Q.
  Qed.
End Ways.

Section Classes.
  Variables (fuel : nat) (st : osi) (maxc : Z) (ops : oprod) (els : list econ).
  Hypothesis Hok : ops_ok st ops.
  Hypothesis EL : elementary_contractions fuel st maxc ops = Ok els.
  Notation n := (length ops).
  Notation L := (product_legs st ops).
  Notation el := (fun c => nth (Z.to_nat c) els []).
  Notation ec := (econ_of n).
  Lemma kcount_concat bs k : kcount (concat bs) k = total_of (fun b => kcount b k) bs.
  Proof.
    induction bs as [|b bs IH]; auto. cbn [concat total_of fold_right]. fold (total_of (fun b => kcount b k) bs). rewrite <- IH. unfold kcount. rewrite map_app, count_occ_app_k, Nat2Z.inj_add. reflexivity.
  Qed.
  Lemma bclass_exists bs : block_set st ops maxc bs -> exists cv, is_multiset els cv /\ compatible st els ops cv /\ Permutation (map ec bs) (map el cv).
  Proof.
    intros Po. destruct (els_allowed fuel st maxc ops els Hok EL) as (_ & Iff).
    assert (X : exists cv, Forall (fun c => 0 <= c < Z.of_nat (length els)) cv /\ map ec bs = map el cv).
    { destruct Po as (A & _). induction bs as [|p ps IH]; [exists []; split; constructor|]. destruct IH as (cv & F & E); [intros q Hq; apply A; right; auto|].
      destruct (In_nth els (ec p) []) as (i & Hi & Ei); [apply Iff, A; left; auto|]. exists (Z.of_nat i :: cv). split; [constructor; [lia|auto]|]. cbn [map]. rewrite E, Nat2Z.id, Ei. reflexivity. }
    destruct X as (cv0 & F & E). destruct (sorted_exists cv0) as (cv & P & S). exists cv.
    assert (Q : Permutation (map ec bs) (map el cv)) by (rewrite E; apply Permutation_map, P).
    split; [split; auto; apply (Forall_perm _ _ _ P), F|]. split; auto.
    assert (C : forall k, In k (kinds st n) -> total_of (fun c => ec_count c k) (map el cv) <= leg_count ops k).
    { intros k Hk. rewrite <- (total_of_perm _ _ _ Q), total_of_map. rewrite (total_of_ext _ (fun b => kcount b k)).
      - rewrite <- kcount_concat. apply (kcount_bound st ops Hok); auto; [apply Po|]. intros l Hl. apply in_concat in Hl. destruct Hl as (b & Hb & Hl). destruct Po as (A & _). apply (L_leg st ops b l); auto. apply A, Hb.
      - intros p _. apply (econ_of_count st); auto. apply Hok. }
    intros A s HA Hs. rewrite !used_total. split; [apply (C (A, s, true))|apply (C (A, s, false))]; apply kinds_in; auto.
  Qed.
  Lemma bclass_left_over cv bs : block_set st ops maxc bs -> Permutation (map ec bs) (map el cv) -> left_over els ops cv = ops_rank ops - Z.of_nat (length (concat bs)).
  Proof.
    intros (A & _) P. unfold left_over, ops_rank. f_equal. rewrite used_total, <- (total_of_perm _ _ _ P), total_of_map.
    clear P. induction bs as [|b bs IH]; [reflexivity|]. cbn [total_of fold_right concat]. fold (total_of (fun a => ec_num_ops (ec a)) bs). rewrite IH by (intros c Hc; apply A; right; auto).
    destruct (A b (or_introl eq_refl)) as (Sb & Ab). rewrite (allowed_length st ops maxc Hok (ec b) b); auto.
    - rewrite app_length, Nat2Z.inj_add. reflexivity.
    - intros l Hl. apply (L_leg st ops b l Sb Hl).
    - apply econ_of_carries, Hok.
  Qed.
  (** Equal contractions, equal kinds. *)
  Lemma econ_kinds b b' : (forall l, In l b -> is_leg st ops l) -> (forall l, In l b' -> is_leg st ops l) -> ec b = ec b' -> Permutation (map fst b) (map fst b').
  Proof.
    intros Hb Hb' E. apply (Permutation_count_occ kind_dec). intros k. destruct (in_dec kind_dec k (kinds st n)) as [I|N].
    - assert (X := econ_of_count st n (proj1 Hok) b k I). rewrite E, (econ_of_count st n (proj1 Hok) b' k I) in X. unfold kcount in X. lia.
    - assert (Y : forall b0, (forall l, In l b0 -> is_leg st ops l) -> count_occ kind_dec (map fst b0) k = 0%nat).
      { intros b0 H0. apply count_occ_not_In. intros I. apply in_map_iff in I. destruct I as (l & <- & Hl). apply N. apply is_leg_kind, H0, Hl. }
      rewrite !Y; auto.
  Qed.
  Lemma class_kinds bs bs' : (forall b l, In b bs -> In l b -> is_leg st ops l) -> (forall b l, In b bs' -> In l b -> is_leg st ops l) -> Permutation (map ec bs) (map ec bs') ->
    exists bs1, Permutation bs bs1 /\ Forall2 (fun b b' => Permutation (map fst b) (map fst b')) bs1 bs'.
  Proof.
    intros H H' P. apply Permutation_sym in P. destruct (Permutation_map_inv _ _ P) as (bs1 & E & Q). exists bs1. split; auto.
    assert (H1 : forall b l, In b bs1 -> In l b -> is_leg st ops l) by (intros b l Hb; apply H, (Permutation_in b (Permutation_sym Q)), Hb).
    clear H P Q. revert bs' H' E. induction bs1 as [|b bs1 IH]; intros [|b' bs'] H' E; try discriminate; constructor; injection E as E1 E2.
    - apply econ_kinds; auto; intros l; [apply H1|apply H']; left; auto.
    - apply IH; auto; [intros c l Hc; apply H1; right; auto|intros c l Hc; apply H'; right; auto].
  Qed.
  Lemma kinds_concat bs1 bs' : Forall2 (fun b b' : list leg => Permutation (map fst b) (map fst b')) bs1 bs' -> Permutation (map fst (concat bs1)) (map fst (concat bs')).
  Proof. induction 1; simpl; auto. rewrite !map_app. apply Permutation_app; auto. Qed.
  Lemma kinds_rest (bs bs1 bs' : list (list leg)) rest rest' : Permutation bs bs1 -> Forall2 (fun b b' : list leg => Permutation (map fst b) (map fst b')) bs1 bs' ->
    Permutation (concat bs ++ rest) (concat bs' ++ rest') -> Permutation (map fst rest) (map fst rest').
  Proof.
    intros P F Q. apply (Permutation_map fst) in Q. rewrite !map_app in Q. apply (Permutation_app_inv_l (map fst (concat bs'))). apply (Permutation_trans (l' := map fst (concat bs) ++ map fst rest)); auto.
    apply Permutation_app_tail. apply Permutation_sym. apply (Permutation_trans (Permutation_map fst (perm_concat _ _ P))). apply kinds_concat, F.
  Qed.
End Classes.
