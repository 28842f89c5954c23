From Coq Require Import Ascii ZArith List Bool Arith Lia Permutation Sorted.
From Verif Require Import Res PartitionsModel RegistryModel RegistryProofs CoreModel OrderProofs CombinatoricsModel CombinatoricsProofs SortSpec SortModel SortProofs AdjointModel RationalModel OperatorModel OperatorSpec OperatorProofs
  WickSearchModel WickSearchSpec WickElemProofs WickElemProofs2 WickCompProofs WickSearchProofs DecModel WickEvalModel CountSpec CountProofs WickCombSpec WickCombProofs WickLegSpec WickLegProofs WickLegProofs2.
Import ListNotations.
Local Open Scope Z_scope.

(** ** Sizes *)
Lemma ec_num_total st n c s : (nsp st <= max_spaces)%nat -> con_shape st n c -> is_space st s -> only_space st c s ->
  ec_num_ops c = total n (fun v => ec_count c (v, s, true)) + total n (fun v => ec_count c (v, s, false)).
Proof.
  intros Hsp (Lc & V) Hs On. unfold ec_num_ops. rewrite fold_sum_total, Lc, <- total_add. apply total_ext. intros v Hv.
  rewrite Forall_forall in V. assert (Hv' : (v < length c)%nat) by lia. destruct (V (nth v c gm_zero) (nth_In c gm_zero Hv')) as (Lg & Zg).
  destruct (is_space_nat st s Hs) as (k & -> & Hk). rewrite gm_num_sum, (gsum_at _ k); [|intros i Hi|lia].
  - unfold ec_count, ec_cre, ec_ann. rewrite cre_of_nat, ann_of_nat. reflexivity.
  - destruct (Nat.lt_ge_cases i (nsp st)) as [Li|Li].
    + destruct (On v (Z.of_nat i) ltac:(lia) (nat_is_space _ _ Li) ltac:(lia)) as (E1 & E2). unfold ec_cre, ec_ann in *. rewrite cre_of_nat in E1. rewrite ann_of_nat in E2.
      destruct (nthp (nth v c gm_zero) i); simpl in *; congruence.
    + destruct (Nat.lt_ge_cases i max_spaces); [apply nthp_of, Zg; lia|]. unfold nthp. apply nth_overflow. lia.
Qed.
Lemma pick_length n c s F b : (forall v, (v < n)%nat -> 0 <= ec_count c (v, s, b)) -> Z.of_nat (length (pick n c s F b)) = total n (fun v => ec_count c (v, s, b)).
Proof.
  unfold pick. induction n as [|n IH]; intros H; [reflexivity|]. rewrite seq_S, flat_map_app, app_length, Nat2Z.inj_add, IH by (intros; apply H; lia). cbn [flat_map total plus].
  rewrite app_nil_r. unfold pick1, range. rewrite !map_length, seq_length. rewrite Z2Nat.id by (apply H; lia). reflexivity.
Qed.

(** ** Positions *)
Definition ordf (L W : list leg) : list Z := map (fun l => if in_dec leg_dec l W then Z.of_nat (lpos l W) else -1) L.
Lemma ordf_length L W : length (ordf L W) = length L. Proof. apply map_length. Qed.
Lemma ordf_set L W p : NoDup L -> In p L -> ~ In p W -> lset (ordf L W) (lpos p L) (Z.of_nat (length W)) = ordf L (W ++ [p]).
Proof.
  intros N Hp Hn. apply list_nth_ext. intros i. rewrite lset_nth by (rewrite ordf_length; apply lpos_lt; auto). unfold ordf. rewrite !nth_error_map.
  destruct (Nat.eqb_spec i (lpos p L)) as [->|Ne].
  - rewrite lpos_nth_error by auto. cbn [option_map]. f_equal. destruct (in_dec leg_dec p (W ++ [p])) as [_|X]; [|exfalso; apply X, in_or_app; right; left; auto].
    rewrite lpos_app_r by auto. simpl. destruct (leg_dec p p); [|tauto]. rewrite Nat.add_0_r. reflexivity.
  - destruct (nth_error L i) as [l|] eqn:E; [|reflexivity]. cbn [option_map]. f_equal. assert (Nl : l <> p).
    { intros ->. apply Ne. eapply (proj1 (NoDup_nth_error L)); auto; [apply nth_error_Some; congruence|]. rewrite E, lpos_nth_error; auto. }
    destruct (in_dec leg_dec l W) as [Hi|Hi], (in_dec leg_dec l (W ++ [p])) as [Hj|Hj]; auto.
    + rewrite lpos_app_l by auto. reflexivity.
    + exfalso. apply Hj, in_or_app. auto.
    + exfalso. apply in_app_or in Hj. destruct Hj as [|[|[]]]; auto.
Qed.
Lemma mark_ok L : NoDup L -> forall P W, NoDup (W ++ P) -> incl P L ->
  mark (ordf L W, Z.of_nat (length W)) (map (posL L) P) = Ok (ordf L (W ++ P), Z.of_nat (length (W ++ P))).
Proof.
  intros N. induction P as [|p P IH]; intros W NW H; [cbn; rewrite app_nil_r; reflexivity|].
  unfold mark in *. cbn [map foldM]. unfold posL at 1. rewrite aset_nat, ordf_length.
  assert (Hp : In p L) by (apply H; left; auto). assert (X := lpos_lt _ _ Hp). apply Nat.ltb_lt in X. rewrite X. cbn [bind].
  rewrite ordf_set; auto; [|apply NoDup_remove_2 in NW; intros Hi; apply NW, in_or_app; auto].
  replace (Z.of_nat (length W) + 1) with (Z.of_nat (length (W ++ [p]))) by (rewrite app_length; simpl; lia).
  rewrite IH; [rewrite <- app_assoc; reflexivity|rewrite <- app_assoc; exact NW|intros l Hl; apply H; right; auto].
Qed.

(** ** The loop over the contractions *)
Lemma precedes_lpos L p q : In p L -> In q L -> (lpos p L < lpos q L)%nat -> precedes L p q.
Proof.
  induction L as [|x L IH]; intros Hp Hq E; [destruct Hp|]. simpl in *. destruct (leg_dec x p) as [->|Np].
  - destruct (leg_dec p q) as [->|Nq]; [lia|]. left. split; auto. destruct Hq; congruence.
  - destruct (leg_dec x q) as [->|Nq]; [lia|]. right. apply IH; [destruct Hp; congruence|destruct Hq; congruence|lia].
Qed.
Lemma sq_index_ok ix L l : In l L -> sq_index (map (leg_sqop ix) L) (posL L l) = Ok (ix l).
Proof.
  intros H. unfold sq_index, posL. rewrite aget_nat, nth_error_map, lpos_nth_error by auto. reflexivity.
Qed.
Lemma sq_indices_ok ix L P : incl P L -> mapM (sq_index (map (leg_sqop ix) L)) (map (posL L) P) = Ok (map ix P).
Proof. induction P as [|p P IH]; intros H; [reflexivity|]. cbn [map mapM]. rewrite sq_index_ok by (apply H; left; auto). cbn [bind]. rewrite IH by (intros l Hl; apply H; right; auto). reflexivity. Qed.
Lemma imput_fresh k v m : (forall x, In x m -> fst x <> k) -> imput k v m = m ++ [(k, v)].
Proof.
  intros H. unfold imput. f_equal. induction m as [|x m IH]; [reflexivity|]. simpl. assert (E : index_eqb (fst x) k = false).
  { destruct (index_eqb (fst x) k) eqn:E; auto. apply index_eqb_eq in E. exfalso. apply (H x); [left; auto|auto]. }
  rewrite E. simpl. f_equal. apply IH. intros y Hy. apply H. right. auto.
Qed.

Definition space_of_allowed st maxc ops c s : Prop :=
  is_space st s /\ only_space st c s /\ exists k, (1 <= k)%nat /\ total (length ops) (fun v => ec_count c (v, s, true)) = Z.of_nat k /\ total (length ops) (fun v => ec_count c (v, s, false)) = Z.of_nat k /\
    ((stype st s = Some Occupied \/ stype st s = Some Unoccupied) /\ k = 1%nat \/ stype st s = Some General) /\ allowed st maxc ops c.
Lemma total_unit n f l : (l < n)%nat -> unit_at n f l -> total n f = 1.
Proof.
  revert l. induction n as [|n IH]; intros l Hl U; [lia|]. cbn [total]. rewrite (U n) by lia. destruct (Nat.eq_dec n l) as [->|Ne].
  - assert (total l f = 0) as ->; [|reflexivity]. assert (G : forall m, (m <= l)%nat -> total m f = 0); [|apply G; lia].
    induction m as [|m IHm]; intros Hm; [reflexivity|]. cbn [total]. rewrite IHm by lia. rewrite (U m) by lia. destruct (Nat.eq_dec m l); lia.
  - rewrite (IH l); [reflexivity|lia|]. intros A HA. apply U. lia.
Qed.
Lemma allowed_space st maxc ops c : allowed st maxc ops c -> exists s, space_of_allowed st maxc ops c s.
Proof.
  intros H. destruct H as [s l r Sh Hs On Ty Hlr Uc Ua Hc Ha|s l r Sh Hs On Ty Hlr Ua Uc Ha Hc|s k Sh Hs On Ty Hk Tc Ta Hb Hx] eqn:E; exists s; split; auto; split; auto.
  - exists 1%nat. repeat split; auto; [apply (total_unit _ _ l); auto; lia|apply (total_unit _ _ r); auto; lia].
  - exists 1%nat. repeat split; auto; [apply (total_unit _ _ r); auto; lia|apply (total_unit _ _ l); auto; lia].
  - exists (Z.to_nat k). repeat split; auto; [lia| |]; simpl; rewrite Z2Nat.id by lia; auto.
Qed.
