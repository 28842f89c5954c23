From Coq Require Import Ascii ZArith List Bool Arith Lia Permutation Sorted.
From Verif Require Import Res PartitionsModel RegistryModel RegistryProofs CoreModel OrderProofs SortSpec SortModel SortProofs AdjointModel OperatorModel OperatorSpec OperatorProofs
  WickSearchModel WickSearchSpec WickElemProofs WickEvalModel CountSpec CountProofs WickCombSpec WickCombProofs WickLegSpec.
Import ListNotations.
Local Open Scope Z_scope.

Lemma leg_dec : forall a b : leg, {a = b} + {a <> b}.
Proof. decide equality; [apply Z.eq_dec|apply kind_dec]. Qed.
Lemma key_eqb_ok a b : key_eqb a b = true <-> a = b.
Proof.
  destruct a as [[[o s] c] i], b as [[[o' s'] c'] i']. unfold key_eqb. rewrite !andb_true_iff, Nat.eqb_eq, !Z.eqb_eq, Bool.eqb_true_iff. split.
  - intros (((-> & ->) & ->) & ->). reflexivity.
  - intros E. injection E as -> -> -> ->. auto.
Qed.

(** Position in a list (the length if absent). *)
Fixpoint lpos (l : leg) (L : list leg) : nat := match L with [] => O | x :: L' => if leg_dec x l then O else S (lpos l L') end.
Lemma lpos_lt l L : In l L -> (lpos l L < length L)%nat.
Proof. induction L as [|x L IH]; [intros []|]. intros H. simpl. destruct (leg_dec x l); [lia|]. destruct H; [congruence|]. specialize (IH H). lia. Qed.
Lemma lpos_nth l L d : In l L -> nth (lpos l L) L d = l.
Proof. induction L as [|x L IH]; [intros []|]. intros H. simpl. destruct (leg_dec x l); [auto|]. destruct H; [congruence|]. auto. Qed.
Lemma lpos_nth_error l L : In l L -> nth_error L (lpos l L) = Some l.
Proof. induction L as [|x L IH]; [intros []|]. intros H. simpl. destruct (leg_dec x l); [subst; auto|]. destruct H; [congruence|]. auto. Qed.
Lemma lpos_absent l L : ~ In l L -> lpos l L = length L.
Proof. induction L as [|x L IH]; intros H; simpl; auto. destruct (leg_dec x l); [exfalso; apply H; left; auto|]. rewrite IH; auto. intros Hi. apply H. right. auto. Qed.
Lemma lpos_app_l l L L' : In l L -> lpos l (L ++ L') = lpos l L.
Proof. induction L as [|x L IH]; [intros []|]. intros H. simpl. destruct (leg_dec x l); auto. destruct H; [congruence|]. rewrite IH; auto. Qed.
Lemma lpos_app_r l L L' : ~ In l L -> lpos l (L ++ L') = (length L + lpos l L')%nat.
Proof. induction L as [|x L IH]; intros H; simpl; auto. destruct (leg_dec x l); [exfalso; apply H; left; auto|]. rewrite IH; auto. intros Hi. apply H. right. auto. Qed.
Lemma lpos_inj l l' L : In l L -> In l' L -> lpos l L = lpos l' L -> l = l'.
Proof. intros H H' E. rewrite <- (lpos_nth l L l H), <- (lpos_nth l' L l H'), E. reflexivity. Qed.

(** The index given to a leg: how many legs of its space come before. *)
Definition cnt_space (s : Z) (L : list leg) : Z := Z.of_nat (length (filter (fun l => leg_space l =? s) L)).
Definition ixf (L : list leg) (l : leg) : index := mkI (leg_space l) (cnt_space (leg_space l) (firstn (lpos l L) L)).
Lemma ixf_app L L' l : In l L -> ixf (L ++ L') l = ixf L l.
Proof.
  intros H. unfold ixf. rewrite lpos_app_l by auto. rewrite firstn_app. assert (X := lpos_lt _ _ H).
  replace (lpos l L - length L)%nat with O by lia. cbn [firstn]. rewrite app_nil_r. reflexivity.
Qed.
Lemma ixf_new L l : ~ In l L -> ixf (L ++ [l]) l = mkI (leg_space l) (cnt_space (leg_space l) L).
Proof.
  intros H. unfold ixf. rewrite lpos_app_r by auto. simpl. destruct (leg_dec l l); [|tauto]. rewrite Nat.add_0_r, firstn_app, firstn_all, Nat.sub_diag. cbn [firstn]. rewrite app_nil_r. reflexivity.
Qed.
Lemma firstn_cnt s L : forall i j l, (i < j)%nat -> nth_error L i = Some l -> leg_space l = s -> cnt_space s (firstn i L) < cnt_space s (firstn j L).
Proof.
  induction L as [|x L IH]; intros i j l Hij E Es; [destruct i; discriminate|]. destruct j as [|j]; [lia|]. destruct i as [|i].
  - simpl in E. injection E as ->. simpl. unfold cnt_space. simpl. rewrite Es, Z.eqb_refl. simpl. lia.
  - simpl in E. specialize (IH i j l ltac:(lia) E Es). unfold cnt_space in *. cbn [firstn filter]. destruct (leg_space x =? s); simpl; lia.
Qed.
Lemma ixf_labels L : labels_legs L (ixf L).
Proof.
  split.
  - intros l H. unfold ixf, cnt_space. simpl. split; [reflexivity|lia].
  - intros l l' H H' E. unfold ixf in E. injection E as E1 E2. apply (lpos_inj l l' L H H').
    destruct (lt_eq_lt_dec (lpos l L) (lpos l' L)) as [[Lt|Eq]|Gt]; auto; exfalso.
    + assert (X := firstn_cnt (leg_space l') L _ _ l Lt (lpos_nth_error _ _ H) E1). rewrite E1 in E2. lia.
    + assert (X := firstn_cnt (leg_space l) L _ _ l' Gt (lpos_nth_error _ _ H') (eq_sym E1)). rewrite <- E1 in E2. lia.
Qed.

(** ** The legs of the operators *)
Section Legs.
  Context (st : osi) (ops : oprod).
  Hypothesis Hok : ops_ok st ops.
  Definition in_spaces (l : leg) : Prop := is_space st (leg_space l).
  (** The state after the legs [L]. *)
  Record linv (e : legs_state) (L : list leg) : Prop := {
    li_sq : ls_sq e = map (leg_sqop (ixf L)) L;
    li_map : forall l, afind key_eqb l (ls_map e) = if in_dec leg_dec l L then Some (Z.of_nat (lpos l L)) else None;
    li_ic : ls_ic e = map (fun s => cnt_space s L) (range (num_spaces st)) }.

  Lemma sq_ext L L' : (forall l, In l L -> ixf L' l = ixf L l) -> map (leg_sqop (ixf L')) L = map (leg_sqop (ixf L)) L.
  Proof. intros H. apply map_ext_in. intros l Hl. unfold leg_sqop. rewrite H; auto. Qed.

  Definition mkleg (A : nat) (b : bool) (sc : Z * Z) : leg := ((A, fst sc, b), snd sc).
  Lemma add_leg_step A b s c idxs e L : linv e L -> is_space st s -> ~ In (mkleg A b (s, c)) L ->
    exists e', add_leg A b (idxs, e) (s, c) = Ok (idxs ++ [ixf (L ++ [mkleg A b (s, c)]) (mkleg A b (s, c))], e') /\ linv e' (L ++ [mkleg A b (s, c)]) /\ ls_tens e' = ls_tens e.
  Proof.
    intros [I1 I2 I3] Hs Hn. assert (X : exists k, s = Z.of_nat k /\ (k < nsp st)%nat) by (exists (Z.to_nat s); unfold is_space, num_spaces, nsp in *; lia).
    destruct X as (k0 & -> & Hlt). clear Hs. set (l := mkleg A b (Z.of_nat k0, c)) in *. unfold add_leg.
    assert (Eic : ls_ic e = map (fun i => cnt_space (Z.of_nat i) L) (seq 0 (nsp st))) by (rewrite I3, range_spaces, map_map; reflexivity).
    rewrite aget_nat, Eic, nth_error_map. rewrite (nth_error_nth' (seq 0 (nsp st)) O) by (rewrite seq_length; auto). rewrite seq_nth by auto. cbn [option_map bind plus].
    rewrite aset_nat, map_length, seq_length. apply Nat.ltb_lt in Hlt as Hb. rewrite Hb. cbn [bind].
    rewrite (ixf_new L l Hn). change (leg_space l) with (Z.of_nat k0). eexists. split; [reflexivity|]. split; [|reflexivity].
    split; cbn [ls_sq ls_map ls_ic].
    - rewrite map_app. cbn [map]. rewrite (sq_ext L (L ++ [l])) by (intros; apply ixf_app; auto). rewrite I1. f_equal. unfold leg_sqop. rewrite (ixf_new L l Hn). reflexivity.
    - intros k. rewrite (afind_aput _ key_eqb_ok). change (A, Z.of_nat k0, b, c) with l. destruct (key_eqb k l) eqn:E.
      + apply key_eqb_ok in E. subst k. destruct (in_dec leg_dec l (L ++ [l])) as [_|N]; [|exfalso; apply N, in_or_app; right; left; auto].
        rewrite lpos_app_r by auto. simpl. destruct (leg_dec l l); [|tauto]. rewrite Nat.add_0_r, I1, map_length. reflexivity.
      + rewrite I2. assert (Ne : k <> l) by (intros ->; rewrite (proj2 (key_eqb_ok l l) eq_refl) in E; discriminate).
        destruct (in_dec leg_dec k L) as [Hi|Hi], (in_dec leg_dec k (L ++ [l])) as [Hi'|Hi']; auto.
        * rewrite lpos_app_l by auto. reflexivity.
        * exfalso. apply Hi', in_or_app. auto.
        * exfalso. apply in_app_or in Hi'. destruct Hi' as [|[|[]]]; auto.
    - apply list_nth_ext. intros i. rewrite lset_nth by (rewrite map_length, seq_length; auto). rewrite range_spaces, !map_map, !nth_error_map.
      destruct (Nat.eqb_spec i k0) as [->|Ne].
      + rewrite (nth_error_nth' (seq 0 (nsp st)) O) by (rewrite seq_length; auto). rewrite seq_nth by auto. cbn [option_map plus]. f_equal.
        unfold cnt_space. rewrite filter_app, app_length. cbn [filter]. change (leg_space l) with (Z.of_nat k0). rewrite Z.eqb_refl. simpl. lia.
      + destruct (nth_error (seq 0 (nsp st)) i) as [j|] eqn:Ej; [|reflexivity]. cbn [option_map]. f_equal. 
        assert (j = i) as ->. { assert (Hi : (i < nsp st)%nat) by (rewrite <- (seq_length (nsp st) 0); apply nth_error_Some; congruence). apply (nth_error_nth _ _ O) in Ej. rewrite seq_nth in Ej; auto. }
        unfold cnt_space. rewrite filter_app, app_length. cbn [filter]. change (leg_space l) with (Z.of_nat k0). destruct (Z.eqb_spec (Z.of_nat k0) (Z.of_nat i)); [lia|]. simpl. lia.
  Qed.
  Lemma add_legs A b scs : forall idxs e L, linv e L -> (forall sc, In sc scs -> is_space st (fst sc)) -> NoDup (L ++ map (mkleg A b) scs) ->
    exists e', foldM (add_leg A b) (idxs, e) scs = Ok (idxs ++ map (ixf (L ++ map (mkleg A b) scs)) (map (mkleg A b) scs), e') /\
      linv e' (L ++ map (mkleg A b) scs) /\ ls_tens e' = ls_tens e.
  Proof.
    induction scs as [|[s c] scs IH]; intros idxs e L I H N; cbn [foldM map].
    - exists e. rewrite !app_nil_r. auto.
    - cbn [map] in N. set (l := mkleg A b (s, c)) in *.
      assert (Hn : ~ In l L). { apply NoDup_remove_2 in N. intros Hi. apply N, in_or_app. auto. }
      destruct (add_leg_step A b s c idxs e L I (H _ (or_introl eq_refl)) Hn) as (e1 & -> & I1 & T1). fold l in I1. cbn [bind]. fold l.
      assert (N1 : NoDup ((L ++ [l]) ++ map (mkleg A b) scs)) by (rewrite <- app_assoc; exact N).
      destruct (IH (idxs ++ [ixf (L ++ [l]) l]) e1 (L ++ [l]) I1 (fun sc Hi => H sc (or_intror Hi)) N1) as (e2 & -> & I2 & T2).
      exists e2. rewrite <- app_assoc in I2 |- *. cbn [app] in I2 |- *. split; [|split; [exact I2|congruence]]. f_equal. f_equal. rewrite <- app_assoc. f_equal. cbn [app map]. f_equal.
      change (L ++ l :: map (mkleg A b) scs) with (L ++ [l] ++ map (mkleg A b) scs). rewrite app_assoc. symmetry. apply ixf_app. apply in_or_app. right. left. auto.
  Qed.
  Lemma cre_legs_spec A : map (mkleg A true) (cre_legs st (op_gm (nth A ops (mkOp [] gm_zero)))) = op_cre_legs st ops A.
  Proof.
    unfold cre_legs, op_cre_legs, ops_cre. induction (range (num_spaces st)) as [|s l IH]; [reflexivity|]. cbn [flat_map]. rewrite map_app, IH. f_equal.
    rewrite map_map. reflexivity.
  Qed.
  Lemma ann_legs_spec A : map (mkleg A false) (ann_legs st (op_gm (nth A ops (mkOp [] gm_zero)))) = rev (op_ann_legs st ops A).
  Proof.
    unfold ann_legs, op_ann_legs, ops_ann. induction (range (num_spaces st)) as [|s l IH]; [reflexivity|]. cbn [rev flat_map]. rewrite flat_map_app, map_app, rev_app_distr, IH. f_equal.
    cbn [flat_map]. rewrite app_nil_r, map_map, <- map_rev. reflexivity.
  Qed.
  Lemma in_cre_legs A l : In l (op_cre_legs st ops A) <-> leg_op l = A /\ leg_cre l = true /\ is_space st (leg_space l) /\ 0 <= snd l < ops_cre ops A (leg_space l).
  Proof.
    unfold op_cre_legs. rewrite in_flat_map. destruct l as [[[A' s] b] i]. unfold leg_op, leg_cre, leg_space. simpl. split.
    - intros (s' & Hs & H). apply in_map_iff in H. destruct H as (i' & E & Hi). injection E as <- <- <- <-. apply range_in in Hs, Hi. auto.
    - intros (-> & -> & Hs & Hi). exists s. split; [apply range_in; exact Hs|]. apply in_map_iff. exists i. split; auto. apply range_in. exact Hi.
  Qed.
  Lemma in_ann_legs A l : In l (op_ann_legs st ops A) <-> leg_op l = A /\ leg_cre l = false /\ is_space st (leg_space l) /\ 0 <= snd l < ops_ann ops A (leg_space l).
  Proof.
    unfold op_ann_legs. rewrite in_flat_map. destruct l as [[[A' s] b] i]. unfold leg_op, leg_cre, leg_space. simpl. split.
    - intros (s' & Hs & H). apply in_map_iff in H. destruct H as (i' & E & Hi). injection E as <- <- <- <-. apply range_in in Hs, Hi. auto.
    - intros (-> & -> & Hs & Hi). exists s. split; [apply range_in; exact Hs|]. apply in_map_iff. exists i. split; auto. apply range_in. exact Hi.
  Qed.
  Lemma cre_legs_nodup A : NoDup (op_cre_legs st ops A).
  Proof.
    unfold op_cre_legs. apply nodup_flat_map; [apply range_nodup| |].
    - intros s _. apply FinFun.Injective_map_NoDup; [intros x y E; congruence|apply range_nodup].
    - intros s s' l _ _ H H'. apply in_map_iff in H, H'. destruct H as (i & <- & _), H' as (i' & E & _). congruence.
  Qed.
  Lemma ann_legs_nodup A : NoDup (op_ann_legs st ops A).
  Proof.
    unfold op_ann_legs. apply nodup_flat_map; [apply range_nodup| |].
    - intros s _. apply FinFun.Injective_map_NoDup; [intros x y E; congruence|apply range_nodup].
    - intros s s' l _ _ H H'. apply in_map_iff in H, H'. destruct H as (i & <- & _), H' as (i' & E & _). congruence.
  Qed.

  Definition legs_upto (m : nat) : list leg := flat_map (fun A => op_cre_legs st ops A ++ rev (op_ann_legs st ops A)) (seq 0 m).
  Lemma in_upto m l : In l (legs_upto m) <-> (leg_op l < m)%nat /\ is_space st (leg_space l) /\ 0 <= snd l < leg_count ops (fst l).
  Proof.
    unfold legs_upto. rewrite in_flat_map. split.
    - intros (A & HA & H). apply in_seq in HA. apply in_app_or in H. destruct H as [H|H].
      + apply in_cre_legs in H. destruct H as (<- & Hc & Hs & Hi). split; [lia|]. split; auto. destruct l as [[[A s] b] i]. unfold leg_cre in Hc. simpl in *. subst b. exact Hi.
      + apply in_rev in H. apply in_ann_legs in H. destruct H as (<- & Hc & Hs & Hi). split; [lia|]. split; auto. destruct l as [[[A s] b] i]. unfold leg_cre in Hc. simpl in *. subst b. exact Hi.
    - intros (HA & Hs & Hi). exists (leg_op l). split; [apply in_seq; lia|]. apply in_or_app. destruct l as [[[A s] b] i]. simpl in *. destruct b.
      + left. apply in_cre_legs. unfold leg_op, leg_cre, leg_space in *. simpl in *. auto.
      + right. apply in_rev. rewrite rev_involutive. apply in_ann_legs. unfold leg_op, leg_cre, leg_space in *. simpl in *. auto.
  Qed.
  Lemma upto_nodup m : NoDup (legs_upto m).
  Proof.
    unfold legs_upto. apply nodup_flat_map; [apply seq_NoDup| |].
    - intros A _. apply nodup_app; [apply cre_legs_nodup|apply NoDup_rev, ann_legs_nodup|].
      intros l H H'. apply in_rev in H'. apply in_cre_legs in H. apply in_ann_legs in H'. destruct H as (_ & E & _), H' as (_ & E' & _). congruence.
    - intros A B l _ _ H H'. assert (G : forall C, In l (op_cre_legs st ops C ++ rev (op_ann_legs st ops C)) -> leg_op l = C).
      { intros C Hi. apply in_app_or in Hi. destruct Hi as [Hi|Hi]; [apply in_cre_legs in Hi|apply in_rev in Hi; apply in_ann_legs in Hi]; tauto. }
      rewrite <- (G A H), <- (G B H'). reflexivity.
  Qed.
  Lemma upto_S m : legs_upto (S m) = legs_upto m ++ op_cre_legs st ops m ++ rev (op_ann_legs st ops m).
  Proof. unfold legs_upto. rewrite seq_S, flat_map_app. cbn [flat_map plus]. rewrite app_nil_r. reflexivity. Qed.
  Lemma cre_in_upto m A l : (A < m)%nat -> In l (op_cre_legs st ops A) -> In l (legs_upto m).
  Proof. intros HA H. unfold legs_upto. apply in_flat_map. exists A. split; [apply in_seq; lia|]. apply in_or_app. auto. Qed.
  Lemma ann_in_upto m A l : (A < m)%nat -> In l (op_ann_legs st ops A) -> In l (legs_upto m).
  Proof. intros HA H. unfold legs_upto. apply in_flat_map. exists A. split; [apply in_seq; lia|]. apply in_or_app. right. rewrite <- in_rev. auto. Qed.
  Lemma op_tensor_ext ix ix' A : (forall l, In l (op_cre_legs st ops A) -> ix l = ix' l) -> (forall l, In l (op_ann_legs st ops A) -> ix l = ix' l) ->
    op_tensor st ops ix A = op_tensor st ops ix' A.
  Proof. intros H H'. unfold op_tensor. f_equal; apply map_ext_in; auto. Qed.

  Lemma legs_stage m : exists e, foldM (fun e o => op_tensor_legs st o (nth o ops (mkOp [] gm_zero)) e)
      (mkLS [] [] [] (repeat 0 (Z.to_nat (num_spaces st)))) (seq 0 m) = Ok e /\
    linv e (legs_upto m) /\ ls_tens e = map (op_tensor st ops (ixf (legs_upto m))) (seq 0 m).
  Proof.
    induction m as [|m (e & E & I & T)].
    - eexists. split; [reflexivity|]. split; [|reflexivity]. split; cbn [ls_sq ls_map ls_ic]; [reflexivity|intros; reflexivity|].
      change (legs_upto 0) with (@nil leg). unfold range. rewrite map_map. generalize (Z.to_nat (num_spaces st)) as k. intros k. generalize O. induction k as [|k IH]; intros n; [reflexivity|]. cbn [repeat seq map]. f_equal. apply IH.
    - rewrite seq_S, foldM_app, E. cbn [bind foldM plus]. unfold op_tensor_legs.
      assert (N : NoDup (legs_upto (S m))) by apply upto_nodup. rewrite upto_S in N.
      assert (N1 : NoDup (legs_upto m ++ op_cre_legs st ops m)) by (rewrite app_assoc in N; apply nodup_app_inv in N; tauto).
      destruct (add_legs m true (cre_legs st (op_gm (nth m ops (mkOp [] gm_zero)))) [] e (legs_upto m) I) as (e1 & E1 & I1 & T1).
      { intros sc Hsc. unfold cre_legs in Hsc. apply in_flat_map in Hsc. destruct Hsc as (s & Hs & Hi). apply in_map_iff in Hi. destruct Hi as (i & <- & _). apply range_in in Hs. exact Hs. }
      { rewrite cre_legs_spec. exact N1. }
      rewrite cre_legs_spec in E1, I1. rewrite E1. cbn [bind app].
      destruct (add_legs m false (ann_legs st (op_gm (nth m ops (mkOp [] gm_zero)))) [] e1 (legs_upto m ++ op_cre_legs st ops m) I1) as (e2 & E2 & I2 & T2).
      { intros sc Hsc. unfold ann_legs in Hsc. apply in_flat_map in Hsc. destruct Hsc as (s & Hs & Hi). apply in_map_iff in Hi. destruct Hi as (i & <- & _). apply in_rev, range_in in Hs. exact Hs. }
      { rewrite ann_legs_spec. rewrite <- app_assoc. exact N. }
      rewrite ann_legs_spec in E2, I2. rewrite E2. cbn [bind app]. rewrite <- app_assoc, <- upto_S in I2 |- *.
      eexists. split; [reflexivity|]. destruct I2 as [J1 J2 J3]. split; [split; cbn [ls_sq ls_map ls_ic]; auto|]. cbn [ls_tens]. rewrite map_app, T2, T1, T. cbn [map]. f_equal.
      + apply map_ext_in. intros A HA. apply in_seq in HA. apply op_tensor_ext; intros l Hl; rewrite upto_S; symmetry; apply ixf_app; [eapply cre_in_upto|eapply ann_in_upto]; eauto; lia.
      + f_equal. unfold op_tensor. f_equal.
        * apply map_ext_in. intros l Hl. rewrite upto_S, app_assoc. symmetry. apply ixf_app. apply in_or_app. auto.
        * rewrite map_rev, rev_involutive. reflexivity.
  Qed.
  Theorem tensors_sqops : exists e, contraction_tensors_sqops st ops = Ok e /\ linv e (product_legs st ops) /\
    ls_tens e = map (op_tensor st ops (ixf (product_legs st ops))) (seq 0 (length ops)).
  Proof. exact (legs_stage (length ops)). Qed.
  Lemma in_product l : In l (product_legs st ops) <-> (leg_op l < length ops)%nat /\ is_space st (leg_space l) /\ 0 <= snd l < leg_count ops (fst l).
  Proof. apply in_upto. Qed.
  Lemma product_nodup : NoDup (product_legs st ops).
  Proof. apply upto_nodup. Qed.
  Lemma product_all : Permutation (product_legs st ops) (all_legs st ops).
  Proof.
    apply NoDup_Permutation; [apply product_nodup|apply legs_nodup|]. intros l. rewrite in_product. unfold all_legs. rewrite in_flat_map. destruct l as [[[A s] b] i]. simpl. split.
    - intros (HA & Hs & Hi). exists (A, s, b). split; [apply kinds_in; auto|]. apply in_map_iff. exists i. split; auto. apply range_in. auto.
    - intros (k & Hk & H). apply in_map_iff in H. destruct H as (i' & E & Hi). injection E as -> ->. apply kinds_in in Hk. apply range_in in Hi. tauto.
  Qed.
End Legs.
