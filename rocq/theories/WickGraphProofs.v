From Coq Require Import ZArith List Bool Arith Lia Permutation Sorted.
From Verif Require Import Res RegistryModel CoreModel OrderProofs SortSpec SortProofs NextPermModel NextPermProofs OperatorModel OperatorSpec OperatorProofs
  WickSearchModel WickSearchSpec WickElemProofs WickEvalModel CountSpec WickCombSpec WickCombProofs WickGraphSpec.
Import ListNotations.
Local Open Scope Z_scope.

(** ** [is_ops_permutation_valid] *)
Section Bubble.
  Context (ops : oprod) (com : Z -> Z -> bool).
  Let sg (x y : Z) : Z := 1 - 2 * Z.rem (op_num (oper_at ops y) * op_num (oper_at ops x)) 2.
  Let ps (x y : Z) : Z := if y <? x then sg x y else 1.
  Definition prow (x : Z) (l : list Z) : Z := fold_right (fun y s => ps x y * s) 1 l.
  Fixpoint psig (l : list Z) : Z := match l with [] => 1 | x :: l' => prow x l' * psig l' end.
  Definition pok : list Z -> Prop := ForallOrdPairs (fun x y => y < x -> com y x = true).

  Lemma prow_perm x l l' : Permutation l l' -> prow x l = prow x l'.
  Proof. induction 1; simpl; auto; try congruence. lia. Qed.

  Lemma pass_spec : forall k l s, (k < length l)%nat ->
    match perm_pass ops com k l s with
    | Some (l', s') => Permutation l l' /\ (pok l <-> pok l') /\ s * psig l = s' * psig l' /\
        exists a m, l' = a ++ m :: skipn (S k) l /\ length a = k /\ Forall (fun x => x <= m) a
    | None => ~ pok l
    end.
  Proof.
    induction k as [|k IH]; intros l s Hk.
    - destruct l as [|x l]; simpl in *; [lia|]. repeat split; auto. exists [], x. auto.
    - destruct l as [|x [|y l]]; simpl in Hk; try lia. cbn [perm_pass]. destruct (Z.ltb_spec y x) as [L|L].
      + destruct (com y x) eqn:C.
        * specialize (IH (x :: l) (s * sg x y) ltac:(simpl; lia)). fold (sg x y). destruct (perm_pass ops com k (x :: l) (s * sg x y)) as [(r & s')|].
          -- destruct IH as (P & Op & Sp & (a & m & E & La & F)). split; [etransitivity; [apply perm_swap|constructor; exact P]|]. split; [|split].
             ++ split; intros Hp.
                ** inversion Hp as [|? ? F1 F2]; subst. inversion F2 as [|? ? F3 F4]; subst. constructor.
                   --- rewrite <- P. constructor; [lia|exact F3].
                   --- apply Op. constructor; [inversion F1; auto|exact F4].
                ** inversion Hp as [|? ? F1 F2]; subst. rewrite <- P in F1. apply Op in F2. inversion F2 as [|? ? F3 F4]; subst. inversion F1; subst.
                   constructor; [constructor; auto|constructor; auto].
             ++ cbn [psig] in *. rewrite <- (prow_perm y _ _ P). cbn [prow fold_right] in *. fold (prow x l) (prow y l).
                assert (ps x y = sg x y) as -> by (unfold ps; apply Z.ltb_lt in L; rewrite L; reflexivity).
                assert (ps y x = 1) as -> by (unfold ps; assert (x <? y = false) as -> by (apply Z.ltb_ge; lia); reflexivity). transitivity (prow y l * (s' * psig r)); [rewrite <- Sp; ring|ring].
             ++ exists (y :: a), m. split; [simpl in E |- *; rewrite E; reflexivity|]. split; [simpl; lia|]. constructor; auto.
                assert (Hx : In x r) by (rewrite <- P; left; auto). rewrite E in Hx. apply in_app_iff in Hx. destruct Hx as [Hx | [-> | Hx]]; [| lia |].
                ** rewrite Forall_forall in F. specialize (F x Hx). lia.
                ** assert (Hm : In m (x :: l)) by (rewrite P, E; apply in_or_app; right; left; auto).
                   destruct (Z_le_gt_dec x m) as [G|G]; [lia|]. exfalso.
                   assert (Hc : (count_occ Z.eq_dec (x :: l) x = count_occ Z.eq_dec r x)%nat) by (apply Permutation_count_occ; exact P).
                   rewrite E, count_occ_app in Hc. 
                   assert (Ha : count_occ Z.eq_dec a x = O) by (apply count_occ_not_In; intros Hi; rewrite Forall_forall in F; specialize (F x Hi); lia).
                   rewrite Ha, count_occ_cons_eq in Hc by auto. rewrite count_occ_cons_neq in Hc by lia. cbn [skipn] in Hc.
                   assert (D : l = firstn k l ++ skipn k l) by (symmetry; apply firstn_skipn). rewrite D in Hc at 1. rewrite count_occ_app in Hc. lia.
          -- intros Hp. apply IH. inversion Hp as [|? ? F1 F2]; subst. inversion F2 as [|? ? F3 F4]; subst. constructor; auto. inversion F1; auto.
        * intros Hp. inversion Hp as [|? ? F1 F2]; subst. inversion F1 as [|? ? F3 F4]; subst. specialize (F3 L). congruence.
      + specialize (IH (y :: l) s ltac:(simpl; lia)). destruct (perm_pass ops com k (y :: l) s) as [(r & s')|].
        * destruct IH as (P & Op & Sp & (a & m & E & La & F)). split; [constructor; exact P|]. split; [|split].
          -- split; intros Hp; inversion Hp as [|? ? F1 F2]; subst; constructor; try (apply Op; auto); [rewrite <- P|rewrite P]; auto.
          -- cbn [psig] in Sp |- *. rewrite <- (prow_perm x _ _ P). transitivity (prow x (y :: l) * (s' * psig r)); [rewrite <- Sp; ring|ring].
          -- exists (x :: a), m. split; [simpl in E |- *; rewrite E; reflexivity|]. split; [simpl; lia|]. constructor; auto.
             assert (Hx : In y r) by (rewrite <- P; left; auto). rewrite E in Hx. apply in_app_iff in Hx. destruct Hx as [Hx | [-> | Hx]]; [| lia |].
             ++ rewrite Forall_forall in F. specialize (F y Hx). lia.
             ++ destruct (Z_le_gt_dec y m) as [G|G]; [lia|]. exfalso.
                assert (Hc : (count_occ Z.eq_dec (y :: l) y = count_occ Z.eq_dec r y)%nat) by (apply Permutation_count_occ; exact P).
                rewrite E, count_occ_app in Hc. 
                assert (Ha : count_occ Z.eq_dec a y = O) by (apply count_occ_not_In; intros Hi; rewrite Forall_forall in F; specialize (F y Hi); lia).
                rewrite Ha, count_occ_cons_eq in Hc by auto. rewrite count_occ_cons_neq in Hc by lia. cbn [skipn] in Hc.
                assert (D : l = firstn k l ++ skipn k l) by (symmetry; apply firstn_skipn). rewrite D in Hc at 1. rewrite count_occ_app in Hc. lia.
        * intros Hp. apply IH. inversion Hp; auto.
  Qed.

  Lemma passes_spec : forall k l s a b, l = a ++ b -> length a = S k -> StronglySorted Z.le b -> Forall (fun x => Forall (Z.le x) b) a ->
      match perm_passes ops com k l s with
      | Some (l', s') => Permutation l l' /\ (pok l <-> pok l') /\ s * psig l = s' * psig l' /\ StronglySorted Z.le l'
      | None => ~ pok l end.
  Proof.
    induction k as [|k IH]; intros l s a b -> La Sb F.
      - destruct a as [|x [|]]; try discriminate. cbn [perm_passes]. repeat split; auto. simpl. constructor; auto. inversion F; auto.
      - cbn [perm_passes]. assert (P := pass_spec (S k) (a ++ b) s ltac:(rewrite app_length; lia)).
        destruct (perm_pass ops com (S k) (a ++ b) s) as [(l' & s')|]; [|exact P]. destruct P as (P & Op & Sp & (a' & m & E & La' & Fm)).
        rewrite <- La, skipn_app, Nat.sub_diag, skipn_all in E. cbn [skipn app] in E.
        assert (Pa : Permutation a (a' ++ [m])).
        { apply (Permutation_app_inv_r b). rewrite <- app_assoc. cbn [app]. rewrite <- E. exact P. }
        assert (X := IH l' s' a' (m :: b)). destruct (perm_passes ops com k l' s') as [(l'' & s'')|].
        + destruct X as (X1 & X2 & X3 & X4).
          * exact E.
          * lia.
          * constructor; auto. rewrite Forall_forall in F. apply F. rewrite Pa. apply in_or_app. right. left. auto.
          * apply Forall_forall. intros x Hx. constructor; [rewrite Forall_forall in Fm; auto|]. rewrite Forall_forall in F. apply F. rewrite Pa. apply in_or_app. auto.
          * split; [etransitivity; eauto|]. split; [tauto|]. split; [congruence|auto].
        + intros Hp. apply X.
          * exact E.
          * lia.
          * constructor; auto. rewrite Forall_forall in F. apply F. rewrite Pa. apply in_or_app. right. left. auto.
          * apply Forall_forall. intros x Hx. constructor; [rewrite Forall_forall in Fm; auto|]. rewrite Forall_forall in F. apply F. rewrite Pa. apply in_or_app. auto.
          * tauto.
  Qed.
  Lemma sorted_pok l : StronglySorted Z.le l -> pok l /\ psig l = 1.
  Proof.
    induction 1 as [|x l Sl (IH1 & IH2) F]; [split; [constructor|reflexivity]|]. split.
    - constructor; auto. eapply Forall_impl; [|exact F]. simpl. intros y Hy L. lia.
    - cbn [psig]. rewrite IH2. assert (prow x l = 1) as ->; [|reflexivity]. clear Sl IH1 IH2. induction F as [|y l Hy F IH]; [reflexivity|].
      cbn [prow fold_right]. fold (prow x l). rewrite IH. unfold ps. assert (y <? x = false) as -> by (apply Z.ltb_ge; lia). reflexivity.
  Qed.
  Lemma valid_spec l : match is_ops_permutation_valid ops com l with Some s => pok l /\ s = psig l | None => ~ pok l end.
  Proof.
    unfold is_ops_permutation_valid. destruct l as [|x l]; [split; [constructor|reflexivity]|].
    assert (P := passes_spec (length (x :: l) - 1) (x :: l) 1 (x :: l) [] ltac:(rewrite app_nil_r; reflexivity) ltac:(simpl; lia) ltac:(constructor)
      ltac:(apply Forall_forall; constructor)).
    destruct (perm_passes ops com _ (x :: l) 1) as [(l' & s')|]; [|exact P]. destruct P as (P & Op & Sp & Ss).
    destruct (sorted_pok _ Ss) as (K1 & K2). rewrite K2 in Sp. split; [tauto|lia].
  Qed.
End Bubble.


(** ** The specification's signs and orders *)
Lemma gsum_nonneg g : (forall i, 0 <= fst (nthp g i) + snd (nthp g i)) -> 0 <= gsum g.
Proof.
  induction g as [|x g IH]; intros H; simpl; [lia|]. assert (H0 := H O). unfold nthp in H0. simpl in H0.
  assert (0 <= gsum g) by (apply IH; intros i; exact (H (S i))). lia.
Qed.
Lemma op_num_nonneg st ops A : ops_ok st ops -> 0 <= op_num (nth A ops (mkOp [] gm_zero)).
Proof.
  intros (Hs & F). destruct (Nat.lt_ge_cases A (length ops)) as [L|L]; [|rewrite nth_overflow by lia; vm_compute; discriminate].
  rewrite Forall_forall in F. destruct (F _ (nth_In ops (mkOp [] gm_zero) L)) as ((Lg & Z0) & N).
  unfold op_num. rewrite gm_num_sum. apply gsum_nonneg. intros i.
  destruct (Nat.lt_ge_cases i (nsp st)) as [Li|Li].
  - destruct (N (Z.of_nat i)) as (N1 & N2); [unfold num_spaces, nsp in *; lia|]. rewrite cre_of_nat in N1. rewrite ann_of_nat in N2. lia.
  - destruct (Nat.lt_ge_cases i max_spaces) as [Lm|Lm].
    + rewrite (nthp_of _ _ _ (Z0 i ltac:(lia))). simpl. lia.
    + unfold nthp. rewrite nth_overflow by lia. simpl. lia.
Qed.

Lemma sgn_parity a b : 0 <= a -> 0 <= b -> 1 - 2 * Z.rem (a * b) 2 = if Z.odd a && Z.odd b then -1 else 1.
Proof.
  intros. rewrite Z.rem_mod_nonneg by nia. rewrite Zmod_odd, Z.odd_mul. destruct (Z.odd a), (Z.odd b); reflexivity.
Qed.
Lemma psig_spec st ops p : ops_ok st ops -> psig ops (map Z.of_nat p) = exchange_sign (odd_op ops) p.
Proof.
  intros Hok. induction p as [|x p IH]; [reflexivity|]. cbn [map psig exchange_sign]. rewrite IH. f_equal. clear IH.
  induction p as [|y p IH]; [reflexivity|]. cbn [map prow fold_right] in *. f_equal; [|exact IH].
  unfold pair_sign. destruct (Nat.ltb_spec y x); [assert (Z.of_nat y <? Z.of_nat x = true) as -> by (apply Z.ltb_lt; lia)|
    assert (Z.of_nat y <? Z.of_nat x = false) as -> by (apply Z.ltb_ge; lia)]; [|reflexivity].
  unfold oper_at. rewrite !Nat2Z.id. rewrite sgn_parity by (eapply op_num_nonneg; eauto). unfold odd_op. cbn [andb].
  rewrite andb_comm. reflexivity.
Qed.

Lemma commute_spec st cs A B : do_contractions_commute st A B cs = true <-> ~ joined st cs A B.
Proof.
  unfold do_contractions_commute. rewrite forallb_forall. split.
  - intros H (c & s & Hc & Hs & Hn & J). specialize (H c Hc). rewrite forallb_forall in H.
    assert (Hr : In s (range (num_spaces st))). { apply range_in. exact Hs. }
    specialize (H s Hr). unfold ec_cre, ec_ann in J. rewrite Hn in H. change (2 =? 2) with true in H. cbn [andb] in H.
    apply negb_true_iff, orb_false_iff in H. destruct H as (H1 & H2). apply Z.ltb_ge in H1, H2. lia.
  - intros H c Hc. apply forallb_forall. intros s Hs. apply range_in in Hs. apply negb_true_iff. destruct (Z.eqb_spec (ec_num_ops c) 2) as [E|E]; [|reflexivity].
    cbn [andb]. apply orb_false_iff. split; apply Z.ltb_ge; apply Z.nlt_ge; intros L; apply H; exists c, s; unfold ec_cre, ec_ann; auto.
Qed.

Lemma fop_nth {A} (R : A -> A -> Prop) l : ForallOrdPairs R l <-> forall i j a b, (i < j)%nat -> nth_error l i = Some a -> nth_error l j = Some b -> R a b.
Proof.
  split.
  - induction 1 as [|x l F Fo IH]; intros i j a b L Ei Ej; [destruct i; discriminate|].
    destruct j as [|j]; [lia|]. destruct i as [|i]; simpl in *.
    + injection Ei as <-. rewrite Forall_forall in F. apply F. eapply nth_error_In; eauto.
    + apply (IH i j); auto; lia.
  - induction l as [|x l IH]; intros H; [constructor|]. constructor.
    + apply Forall_forall. intros y Hy. apply In_nth_error in Hy. destruct Hy as (j & Ej). apply (H O (S j) x y); simpl; auto; lia.
    + apply IH. intros i j a b L Ei Ej. apply (H (S i) (S j) a b); simpl; auto; lia.
Qed.
Lemma pok_spec st cs p : pok (commutable st cs) (map Z.of_nat p) <-> keeps_joined_order st cs p.
Proof.
  unfold pok. rewrite fop_nth. unfold keeps_joined_order, before. split.
  - intros H A B (i & j & L & Ei & Ej) LA. apply commute_spec. specialize (H i j (Z.of_nat A) (Z.of_nat B) L).
    rewrite !nth_error_map, Ei, Ej in H. specialize (H eq_refl eq_refl ltac:(lia)). unfold commutable in H. rewrite !Nat2Z.id in H. exact H.
  - intros H i j a b L Ei Ej Lb. rewrite nth_error_map in Ei, Ej. destruct (nth_error p i) as [A|] eqn:EA; [|discriminate]. destruct (nth_error p j) as [B|] eqn:EB; [|discriminate].
    simpl in Ei, Ej. injection Ei as <-. injection Ej as <-. unfold commutable. rewrite !Nat2Z.id. apply commute_spec. apply H; [|lia]. exists i, j. auto.
Qed.

(** ** The candidates *)
Lemma iota_perm n l : Permutation (iota n) l <-> exists p, rearrangement n p /\ l = map Z.of_nat p.
Proof.
  unfold iota, rearrangement. split.
  - intros P. exists (map Z.to_nat l). split.
    + rewrite <- P, map_map. rewrite (map_ext _ (fun x => x)) by (intros; apply Nat2Z.id). rewrite map_id. reflexivity.
    + rewrite map_map. symmetry. rewrite <- (map_id l) at 2. apply map_ext_in. intros z Hz. rewrite <- P in Hz. apply in_map_iff in Hz.
      destruct Hz as (x & <- & _). rewrite Nat2Z.id. reflexivity.
  - intros (p & P & ->). apply Permutation_map. exact P.
Qed.
Lemma iota_sorted n : StronglySorted Z.le (iota n).
Proof.
  unfold iota. generalize O. induction n as [|n IH]; intros k; simpl; constructor; auto. apply Forall_forall. intros z Hz.
  apply in_map_iff in Hz. destruct Hz as (x & <- & Hx). apply in_seq in Hx. lia.
Qed.
Lemma graphs_spec st ops cs g : In g (graphs st ops cs) <->
  exists p q, rearrangement (length ops) p /\ rearrangement (length cs) q /\ keeps_joined_order st cs p /\ g = (map Z.of_nat p, map Z.of_nat q).
Proof.
  unfold graphs, ops_perms, con_perms. rewrite in_flat_map.
  destruct (np_visited_spec _ (iota_sorted (length ops))) as (_ & V1 & _). destruct (np_visited_spec _ (iota_sorted (length cs))) as (_ & V2 & _).
  split.
  - intros (o & Ho & Hg). apply filter_In in Ho. destruct Ho as (Ho & Hv). apply V1, iota_perm in Ho. destruct Ho as (p & Rp & ->).
    apply in_map_iff in Hg. destruct Hg as (c & <- & Hc). apply V2, iota_perm in Hc. destruct Hc as (q & Rq & ->). exists p, q. repeat split; auto.
    assert (X := valid_spec ops (commutable st cs) (map Z.of_nat p)). destruct (is_ops_permutation_valid _ _ _); [|discriminate]. apply pok_spec. tauto.
  - intros (p & q & Rp & Rq & K & ->). exists (map Z.of_nat p). split.
    + apply filter_In. split; [apply V1, iota_perm; eauto|]. assert (X := valid_spec ops (commutable st cs) (map Z.of_nat p)).
      destruct (is_ops_permutation_valid _ _ _); [reflexivity|]. apply pok_spec in K. tauto.
    + apply in_map_iff. exists (map Z.of_nat q). split; auto. apply V2, iota_perm; eauto.
Qed.
Lemma gops_pick ops p q : gops ops (map Z.of_nat p, q) = pick_ops ops p.
Proof. unfold gops, pick_ops, oper_at. simpl. rewrite map_map. apply map_ext. intros. rewrite Nat2Z.id. reflexivity. Qed.
Lemma gcon_pick cs p q : gcon cs (map Z.of_nat p, map Z.of_nat q) = pick_cons cs p q.
Proof.
  unfold gcon, pick_cons. simpl. rewrite map_map. apply map_ext. intros c. rewrite map_map. apply map_ext. intros A. rewrite !Nat2Z.id. reflexivity.
Qed.

(** ** The comparison *)
Definition glt (x y : oprod * list gmat) : bool :=
  if lexb oper_ltb (fst x) (fst y) then true else if lexb oper_ltb (fst y) (fst x) then false else lexb gmat_ltb (snd y) (snd x).
Definition geq (x y : oprod * list gmat) : bool := list_eqb oper_eqb (fst x) (fst y) && list_eqb gmat_eqb (snd x) (snd y).
Lemma glt_swo : swo glt geq.
Proof.
  eapply (swo_lex2 fst snd); [apply (swo_list _ _ swo_oper)|apply swo_rev; apply (swo_list _ _ swo_gmat)|reflexivity|reflexivity].
Qed.
Lemma ops_cmp_lex : forall l r, length l = length r ->
  ops_cmp l r = if lexb oper_ltb l r then Some true else if lexb oper_ltb r l then Some false else None.
Proof.
  induction l as [|x l IH]; intros [|y r] L; try discriminate; [reflexivity|]. cbn [ops_cmp lexb]. rewrite IH by (simpl in L; lia).
  destruct (swo_cases _ _ swo_oper x y) as [(A1&A2&A3)|[(A1&A2&A3)|(A1&A2&A3)]]; rewrite ?A1, ?A2; reflexivity.
Qed.
Lemma gm_cmp_lex : forall l r, length l = length r ->
  gm_cmp l r = if lexb gmat_ltb r l then Some true else if lexb gmat_ltb l r then Some false else None.
Proof.
  induction l as [|x l IH]; intros [|y r] L; try discriminate; [reflexivity|]. cbn [gm_cmp lexb]. rewrite IH by (simpl in L; lia).
  destruct (swo_cases _ _ swo_gmat x y) as [(A1&A2&A3)|[(A1&A2&A3)|(A1&A2&A3)]]; rewrite ?A1, ?A2; reflexivity.
Qed.
Lemma pick_cons_length cs p q : length (concat (pick_cons cs p q)) = (length q * length p)%nat.
Proof. unfold pick_cons. induction q as [|c q IH]; [reflexivity|]. cbn [map concat length]. rewrite app_length, map_length, IH. simpl. lia. Qed.
Definition gk (ops : oprod) (cs : list econ) (p q : list nat) : oprod * list gmat := (pick_ops ops p, concat (pick_cons cs p q)).
Lemma graph_less_glt ops cs p q p' q' : length p = length p' -> length q = length q' ->
  graph_less ops cs (map Z.of_nat p, map Z.of_nat q) (map Z.of_nat p', map Z.of_nat q') = glt (gk ops cs p q) (gk ops cs p' q').
Proof.
  intros Lp Lq. unfold graph_less. rewrite !gops_pick, !gcon_pick. unfold glt, gk. cbn [fst snd].
  rewrite ops_cmp_lex by (unfold pick_ops; rewrite !map_length; auto). rewrite gm_cmp_lex by (rewrite !pick_cons_length; congruence).
  destruct (lexb oper_ltb (pick_ops ops p) _); [reflexivity|]. destruct (lexb oper_ltb (pick_ops ops p') _); [reflexivity|].
  destruct (lexb gmat_ltb _ _); [reflexivity|]. destruct (lexb gmat_ltb _ _); reflexivity.
Qed.
Lemma lex_eq {A} (lt eqb : A -> A -> bool) : swo lt eqb -> (forall a b, eqb a b = true <-> a = b) ->
  forall l r, lexb lt l r = false -> lexb lt r l = false -> l = r.
Proof. intros W E l r H1 H2. apply (OrderProofs.list_eqb_eq eqb E). apply (swo_eq _ _ (swo_list _ _ W)). auto. Qed.
Lemma preferred_glt x y : preferred x y <-> glt (fst x, concat (snd x)) (fst y, concat (snd y)) = true.
Proof.
  unfold preferred, glt. cbn [fst snd]. split.
  - intros [-> | (-> & L)]; [reflexivity|]. rewrite (swo_irrefl _ _ (swo_list _ _ swo_oper)). exact L.
  - destruct (lexb oper_ltb (fst x) (fst y)) eqn:E1; [auto|]. destruct (lexb oper_ltb (fst y) (fst x)) eqn:E2; [discriminate|]. intros L. right.
    split; auto. apply (lex_eq _ _ swo_oper oper_eqb_eq); auto.
Qed.
