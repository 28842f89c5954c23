(** C61: the graph canonicalization: the sets of contracted blocks correspond to each other. *)
From Coq Require Import ZArith List Bool Arith Lia Permutation.
From Verif Require Import Res RegistryModel CoreModel AdjointModel OperatorModel OperatorSpec OperatorProofs SortSpec SortProofs WickSearchModel WickSearchSpec CountSpec CountProofs WickCombSpec WickCombProofs WickElemProofs WickElemProofs2 WickCompProofs WickSearchProofs WickEvalModel WickGraphSpec WickGraphProofs WickGraphProofs2 WickLegSpec WickLegProofs WickLegProofs3 WickLegProofs6 WickPairProofs WickPairProofs2 WickPairProofs3 WickPairProofs4 WickPairProofs5 WickPairProofs6 WickGenProofs4 WickGenProofs5.
Import ListNotations.
Local Open Scope Z_scope.

(** Blocks of legs that carry out the contractions [cs]; [rest]: the other legs. *)
Definition brep (st : osi) (ops : oprod) (cs : list econ) (bs : list (list leg)) (rest : list leg) : Prop :=
  Permutation (map (econ_of (length ops)) bs) cs /\ Permutation (product_legs st ops) (concat bs ++ rest).

Section Corr.
  Variables (st : osi) (ops : oprod) (p q : list nat) (cs : list econ) (maxc : Z).
  Hypothesis Hok : ops_ok st ops.
  Notation n := (length ops).
  Hypothesis HP : rearrangement n p.
  Hypothesis HQ : rearrangement (length cs) q.
  Notation ops' := (pick_ops ops p).
  Notation cs' := (pick_cons cs p q).
  Notation rho := (ren p).
  Notation L := (product_legs st ops).
  Notation L' := (product_legs st ops').
  Hypothesis HJ : keeps_joined_order st cs p.
  Hypothesis Al : Forall (allowed st maxc ops) cs.
  Notation len' := (len' ops p HP).

  Lemma al_length c : In c cs -> length c = n.
  Proof. intros Hc. rewrite Forall_forall in Al. destruct (Al c Hc) as [s l r (S & _)|s l r (S & _)|s k (S & _)]; exact S. Qed.
  Lemma legs_lt l : In l L' -> (leg_op l < n)%nat /\ is_space st (leg_space l).
  Proof. intros H. apply in_product in H. rewrite <- len'. destruct H as (H1 & H2 & _). auto. Qed.
  Lemma econ_len b : length (econ_of n b) = n.
  Proof. unfold econ_of. rewrite map_length, seq_length. reflexivity. Qed.
  Lemma econ_ren_b b : (forall l, In l b -> In l L') -> econ_of (length ops') b = pick_con p (econ_of n (map rho b)).
  Proof. intros H. rewrite len'. symmetry. apply (pick_econ st ops p Hok HP b). intros l Hl. apply legs_lt, H, Hl. Qed.
  Lemma bfwd bs : (forall b l, In b bs -> In l b -> In l L') -> Permutation (map (econ_of (length ops')) bs) cs' -> Permutation (map (econ_of n) (map (map rho) bs)) cs.
  Proof.
    intros H P. apply (perm_map_inj (pick_con p)).
    - intros c d Hc Hd. apply (pick_inj ops p HP); [|apply al_length, Hd]. apply in_map_iff in Hc. destruct Hc as (x & <- & _). apply econ_len.
    - rewrite !map_map. eapply Permutation_trans; [|apply (pick_cons_perm p q cs HQ)]. eapply Permutation_trans; [|exact P].
      rewrite (map_ext_in (econ_of (length ops')) (fun b => pick_con p (econ_of n (map rho b)))); auto. intros b Hb. apply econ_ren_b. intros l Hl. apply (H b l Hb Hl).
  Qed.
  Lemma bbwd bs : (forall b l, In b bs -> In l b -> In l L') -> Permutation (map (econ_of n) (map (map rho) bs)) cs -> Permutation (map (econ_of (length ops')) bs) cs'.
  Proof.
    intros H P. rewrite (map_ext_in (econ_of (length ops')) (fun b => pick_con p (econ_of n (map rho b)))) by (intros b Hb; apply econ_ren_b; intros l Hl; apply (H b l Hb Hl)).
    eapply Permutation_trans; [|apply Permutation_sym, (pick_cons_perm p q cs HQ)]. rewrite map_map in P. apply (Permutation_map (pick_con p)) in P. rewrite map_map in P. exact P.
  Qed.
  Lemma map_concat (bs : list (list leg)) : map rho (concat bs) = concat (map (map rho) bs).
  Proof. induction bs as [|b bs IH]; auto. cbn [concat map]. rewrite map_app, IH. reflexivity. Qed.
  Lemma ren_perm : Permutation L (map rho L').
  Proof. apply Permutation_sym. exact (sperm_perm _ _ _ (ren_sperm st ops p Hok HP)). Qed.
  Lemma brep_pick bs rest : brep st ops' cs' bs rest -> brep st ops cs (map (map rho) bs) (map rho rest).
  Proof.
    intros (A1 & A2). split.
    - apply bfwd; auto. intros b l Hb Hl. apply (Permutation_in l (Permutation_sym A2)). apply in_or_app. left. apply in_concat. eauto.
    - apply (Permutation_trans ren_perm). rewrite <- map_concat, <- map_app. apply Permutation_map, A2.
  Qed.
  Lemma rho_inj x y : In x L' -> In y L' -> rho x = rho y -> x = y.
  Proof. intros Hx Hy. apply (ren_inj ops p HP); apply legs_lt; auto. Qed.
  Lemma map_rho_in x b : In x L' -> (forall l, In l b -> In l L') -> In (rho x) (map rho b) -> In x b.
  Proof. intros Hx Hb H. apply in_map_iff in H. destruct H as (y & E & Hy). apply rho_inj in E; subst; auto. Qed.

  Definition fw (b : list leg) : list leg := ord L (map rho b).
  Lemma fw_in b l : subseq b L' -> In l (fw b) <-> In l (map rho b).
  Proof.
    intros S. unfold fw. rewrite ord_in. split; [tauto|]. intros H. split; auto. apply (Permutation_in l (Permutation_sym ren_perm)). apply in_map_iff in H. destruct H as (x & <- & Hx). apply in_map. eapply subseq_in; eauto.
  Qed.
  Lemma nodup_rho b : NoDup b -> (forall l, In l b -> In l L') -> NoDup (map rho b).
  Proof.
    induction 1 as [|x b N ND IH]; intros H; cbn [map]; constructor; [|apply IH; intros; apply H; right; auto].
    intros I. apply N. apply map_rho_in; auto; [apply H; left; auto|intros; apply H; right; auto].
  Qed.
  Lemma sub_L' b : subseq b L' -> forall l, In l b -> In l L'.
  Proof. intros S l Hl. eapply subseq_in; eauto. Qed.
  Lemma fw_perm b : subseq b L' -> Permutation (map rho b) (fw b).
  Proof.
    intros S. apply ord_perm; [apply product_nodup| |].
    - apply nodup_rho; [|apply sub_L', S]. eapply CountProofs.subseq_nodup; eauto. apply product_nodup.
    - intros l Hl. apply (fw_in b l S) in Hl. apply ord_in in Hl. tauto.
  Qed.
  Lemma fw_inj b c : subseq b L' -> subseq c L' -> fw b = fw c -> b = c.
  Proof.
    intros Sb Sc E. apply (subseq_unique _ _ L'); auto; [apply product_nodup|].
    assert (X : forall b c, subseq b L' -> subseq c L' -> fw b = fw c -> forall x, In x b -> In x c).
    { clear b c Sb Sc E. intros b c Sb Sc E x Hx. apply map_rho_in; [apply (sub_L' b Sb), Hx|apply sub_L', Sc|]. apply (fw_in c _ Sc). rewrite <- E. apply (fw_in b _ Sb). apply in_map, Hx. }
    intros x. split; apply X; auto.
  Qed.
  Lemma fw_econ bs : (forall b, In b bs -> subseq b L') -> map (econ_of n) (map fw bs) = map (econ_of n) (map (map rho) bs).
  Proof. intros H. rewrite !map_map. apply map_ext_in. intros b Hb. symmetry. apply econ_of_perm, fw_perm, H, Hb. Qed.
  Lemma fw_set bs : block_set st ops' maxc bs -> Permutation (map (econ_of (length ops')) bs) cs' -> block_set st ops maxc (map fw bs) /\ Permutation (map (econ_of n) (map fw bs)) cs.
  Proof.
    intros (H & ND) P. assert (S : forall b, In b bs -> subseq b L') by (intros b Hb; apply H, Hb).
    assert (Q : Permutation (map (econ_of n) (map fw bs)) cs). { rewrite fw_econ by exact S. apply bfwd; auto. intros b l Hb. apply sub_L', S, Hb. }
    split; auto. split.
    - intros b Hb. split; [apply in_map_iff in Hb; destruct Hb as (c & <- & _); apply ord_sub|]. rewrite Forall_forall in Al. apply Al. apply (Permutation_in _ Q), in_map, Hb.
    - apply (Permutation_NoDup (l := map rho (concat bs))).
      + rewrite map_concat. apply perm_concat2. clear - S HP Hok. induction bs as [|b bs IH]; cbn [map]; constructor; [apply fw_perm, S; left; auto|apply IH; intros; apply S; right; auto].
      + apply nodup_rho; auto. intros l Hl. apply in_concat in Hl. destruct Hl as (b & Hb & Hl). apply (sub_L' b (S b Hb)), Hl.
  Qed.
  Lemma bw_exists b : subseq b L -> exists b', subseq b' L' /\ fw b' = b.
  Proof.
    intros S. assert (exists b0, map rho b0 = b /\ forall l, In l b0 -> In l L') as (b0 & E & H0).
    { assert (I : forall l, In l b -> In l (map rho L')) by (intros l Hl; apply (Permutation_in l ren_perm); eapply subseq_in; eauto). clear S.
      induction b as [|x b IH]; [exists []; split; auto; easy|]. destruct IH as (b0 & E & H0); [intros; apply I; right; auto|]. assert (Ix := I x (or_introl eq_refl)). apply in_map_iff in Ix. destruct Ix as (y & Ey & Hy).
      exists (y :: b0). split; [cbn [map]; congruence|]. intros l [<-|Hl]; auto. }
    exists (ord L' b0). split; [apply ord_sub|]. rewrite <- (ord_id L b) by (auto; apply product_nodup). unfold fw. apply ord_ext. intros l. rewrite <- E, !in_map_iff. split; intros (y & Ey & Hy); exists y; split; auto; [apply ord_in in Hy; tauto|]. apply ord_in. auto.
  Qed.
  Lemma bw_set bs : block_set st ops maxc bs -> Permutation (map (econ_of n) bs) cs -> exists bs', block_set st ops' maxc bs' /\ Permutation (map (econ_of (length ops')) bs') cs' /\ bs = map fw bs'.
  Proof.
    intros (H & ND) P. assert (exists bs', bs = map fw bs' /\ forall b, In b bs' -> subseq b L') as (bs' & -> & S).
    { clear P ND. induction bs as [|b bs IH]; [exists []; split; auto; easy|]. destruct IH as (bs' & E & S); [intros; apply H; right; auto|]. destruct (bw_exists b) as (b' & Sb & Eb); [apply H; left; auto|].
      exists (b' :: bs'). split; [cbn [map]; congruence|]. intros c [<-|Hc]; auto. }
    assert (Hl : forall b l, In b bs' -> In l b -> In l L') by (intros b l Hb; apply sub_L', S, Hb).
    assert (P' : Permutation (map (econ_of (length ops')) bs') cs'). { apply bbwd; auto. rewrite <- fw_econ; auto. }
    exists bs'. split; [|auto]. split.
    - intros b Hb. split; [apply S, Hb|]. rewrite econ_ren_b by (intros l; apply Hl, Hb).
      assert (I : In (econ_of n (map rho b)) cs). { apply (Permutation_in _ P). rewrite fw_econ by exact S. apply in_map, in_map, Hb. }
      apply (pick_allowed st maxc ops cs p Hok HP HJ); auto. rewrite Forall_forall in Al. apply Al, I.
    - apply (Permutation_NoDup (l' := map rho (concat bs'))) in ND; [apply (NoDup_map_inv rho), ND|]. rewrite map_concat. apply Permutation_sym. apply perm_concat2.
      clear - S HP Hok. induction bs' as [|b bs IH]; cbn [map]; constructor; [apply fw_perm, S; left; auto|apply IH; intros; apply S; right; auto].
  Qed.

  (** Pair contractions keep the order of their operators. *)
  Lemma good_two b x y : b = [x; y] -> good_block st ops maxc b -> leg_space x = leg_space y /\ leg_cre x = negb (leg_cre y).
  Proof.
    intros -> G. split.
    - destruct G as [(u & v & P & _ & _ & Es & _)|(s & _ & _ & Sp & _)]; [|rewrite (Sp x), (Sp y) by (simpl; auto); auto]. destruct (Permutation_length_2 P) as [[-> ->]|[-> ->]]; auto.
    - apply good_even in G. unfold ncre in G. cbn [filter] in G. destruct (leg_cre x), (leg_cre y); auto; cbn in G; lia.
  Qed.
  Lemma order_kept x y : In x L' -> In y L' -> In (econ_of n (map rho [x; y])) cs -> (leg_op x < leg_op y)%nat -> (leg_op (rho x) < leg_op (rho y))%nat.
  Proof.
    intros Hx Hy I Lt. assert (Ac : allowed st maxc ops (econ_of n (map rho [x; y]))) by (rewrite Forall_forall in Al; apply Al, I).
    destruct (legs_lt x Hx) as (Ox & Sx). destruct (legs_lt y Hy) as (Oy & Sy).
    assert (Lx : is_leg st ops (rho x)) by (apply (in_product st ops), (Permutation_in _ (Permutation_sym ren_perm)), in_map, Hx).
    assert (Ly : is_leg st ops (rho y)) by (apply (in_product st ops), (Permutation_in _ (Permutation_sym ren_perm)), in_map, Hy).
    assert (Lb : forall l, In l (map rho [x; y]) -> is_leg st ops l) by (intros l [<-|[<-|[]]]; auto).
    assert (Ca := econ_of_carries st n (proj1 Hok) (map rho [x; y])).
    assert (G := allowed_good st ops maxc Hok _ _ Ac Lb Ca). destruct (good_two _ _ _ eq_refl G) as (Es & Ecr). rewrite !ren_space in Es. rewrite !ren_cre in Ecr.
    assert (E2 : ec_num_ops (econ_of n (map rho [x; y])) = 2) by (rewrite (allowed_length st ops maxc Hok _ _ Ac Lb Ca); reflexivity).
    destruct (Nat.lt_trichotomy (leg_op (rho x)) (leg_op (rho y))) as [H|[H|H]]; auto; exfalso.
    - rewrite !ren_op in H. apply (rearr_inj ops p HP) in H; auto. lia.
    - apply (HJ (leg_op (rho x)) (leg_op (rho y))); auto.
      + exists (leg_op x), (leg_op y). rewrite !ren_op. repeat split; auto; apply nth_error_nth'; rewrite (rearr_length _ _ HP); auto.
      + exists (econ_of n (map rho [x; y])), (leg_space x). split; auto. split; auto. split; auto.
        assert (Gx : 0 < ec_count (econ_of n (map rho [x; y])) (fst (rho x))) by (rewrite (econ_of_count st) by (try apply Hok; apply is_leg_kind; auto); apply kcount_pos; simpl; auto).
        assert (Gy : 0 < ec_count (econ_of n (map rho [x; y])) (fst (rho y))) by (rewrite (econ_of_count st) by (try apply Hok; apply is_leg_kind; auto); apply kcount_pos; simpl; auto).
        rewrite leg_kind_eta, ren_space, ren_cre in Gx, Gy. rewrite <- Es in Gy. rewrite Ecr in Gx. destruct (leg_cre y); cbn [negb ec_count] in Gx, Gy; [left|right]; nia.
  Qed.

  Variables (ms ms' : list (list (list leg))).
  Hypothesis M1 : forall bs, In bs ms -> block_set st ops maxc bs.
  Hypothesis M2 : forall bs, block_set st ops maxc bs -> exists m, In m ms /\ Permutation m bs.
  Hypothesis M3 : ForallOrdPairs (fun m m' => ~ Permutation m m') ms.
  Hypothesis N1 : forall bs, In bs ms' -> block_set st ops' maxc bs.
  Hypothesis N2 : forall bs, block_set st ops' maxc bs -> exists m, In m ms' /\ Permutation m bs.
  Hypothesis N3 : ForallOrdPairs (fun m m' => ~ Permutation m m') ms'.
  Theorem bcorr_count : length (filter (bmatches ops' cs') ms') = length (filter (bmatches ops cs) ms).
  Proof.
    apply Nat.le_antisymm; (rewrite <- (map_length (map fw) (filter (bmatches ops' cs') ms'))).
    - apply le_reps.
      + apply (fop_map_in _ (fun m m' => ~ Permutation m m')); [|apply fop_filter, N3]. intros x y Hx Hy H P. apply H. apply filter_In in Hx, Hy. destruct Hx as (Hx & _), Hy as (Hy & _).
        apply (perm_map_inj fw); auto. intros a b Ha Hb. apply fw_inj; [apply (N1 x Hx), Ha|apply (N1 y Hy), Hb].
      + intros r Hr. apply in_map_iff in Hr. destruct Hr as (m' & <- & Hm'). apply filter_In in Hm'. destruct Hm' as (Hm' & Mt). apply permb_spec in Mt.
        destruct (fw_set m' (N1 m' Hm') Mt) as (B1 & B2). destruct (M2 (map fw m')) as (m & Hm & Pm); [auto|].
        exists m. split; [|apply Permutation_sym, Pm]. apply filter_In. split; auto. apply permb_spec. apply (Permutation_trans (Permutation_map (econ_of n) Pm)), B2.
    - apply le_reps; [apply fop_filter, M3|]. intros m Hm. apply filter_In in Hm. destruct Hm as (Hm & Mt). apply permb_spec in Mt.
      destruct (bw_set m (M1 m Hm) Mt) as (bs' & B1 & B2 & E). destruct (N2 bs' B1) as (m' & Hm' & Pm').
      exists (map fw m'). split; [|rewrite E; apply Permutation_map, Permutation_sym, Pm']. apply in_map, filter_In. split; auto. apply permb_spec. apply (Permutation_trans (Permutation_map (econ_of (length ops')) Pm')), B2.
  Qed.
End Corr.
