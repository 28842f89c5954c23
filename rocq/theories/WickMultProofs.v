(** C70: weights of repeated contractions. *)
From Coq Require Import ZArith QArith List Lia Permutation Arith.
From Verif Require Import Res RegistryModel CoreModel RationalModel RationalSpec RationalProofs OperatorModel WickSearchModel WickSearchSpec CountSpec WickCombSpec WickEvalModel WickCombProofs WickMultSpec.
Import ListNotations.
Local Open Scope Z_scope.

Lemma fold_mul_perm {X} (f : X -> Z) l l' : Permutation l l' -> fold_right (fun c z => f c * z) 1 l = fold_right (fun c z => f c * z) 1 l'.
Proof. induction 1; simpl; try lia. Qed.
Lemma prod_mult_image (g : econ -> econ) cs cs' f : (forall c d, In c cs -> In d cs -> g c = g d -> c = d) -> Permutation cs' (map g cs) -> prod_mult cs' f = prod_mult cs f.
Proof.
  intros Inj P. unfold prod_mult.
  assert (Pn : Permutation (nodup econ_dec cs') (map g (nodup econ_dec cs))).
  { apply NoDup_Permutation.
    - apply NoDup_nodup.
    - assert (I : forall c, In c (nodup econ_dec cs) -> In c cs) by (intros c; apply nodup_In). assert (ND := NoDup_nodup econ_dec cs). revert I ND.
      generalize (nodup econ_dec cs). intros l. induction l as [|a l IH]; intros I ND; simpl; constructor; inversion ND; subst.
      + intros Hin. apply in_map_iff in Hin. destruct Hin as (b & E & Hb). apply Inj in E; [subst; auto|apply I; right; auto|apply I; left; auto].
      + apply IH; auto. intros c Hc. apply I. right. exact Hc.
    - intros x. rewrite nodup_In. split; intros H.
      + apply (Permutation_in _ P) in H. apply in_map_iff in H. destruct H as (c & <- & Hc). apply in_map. apply nodup_In. exact Hc.
      + apply (Permutation_in _ (Permutation_sym P)). apply in_map_iff in H. destruct H as (c & <- & Hc). apply in_map. apply nodup_In in Hc. exact Hc. }
  rewrite (fold_mul_perm (fun c => Z.of_nat (f (mult cs' c))) _ _ Pn).
  assert (M : forall c, In c cs -> mult cs' (g c) = mult cs c).
  { intros c Hc. unfold mult. rewrite (proj1 (Permutation_count_occ econ_dec _ _) P (g c)). clear P Pn. assert (Inj' : forall d, In d cs -> g d = g c -> d = c) by (intros; apply Inj; auto). clear Inj Hc.
    induction cs as [|a l IH]; auto. cbn [map count_occ]. rewrite IH by (intros; apply Inj'; auto; right; auto).
    destruct (econ_dec (g a) (g c)) as [E|E], (econ_dec a c) as [E'|E']; auto; exfalso; [|congruence]. apply E'. apply Inj'; auto. left; auto. }
  assert (I : forall c, In c (nodup econ_dec cs) -> In c cs) by (intros c; apply nodup_In). revert I. generalize (nodup econ_dec cs). intros l.
  induction l as [|a l IH]; intros I; auto. simpl. rewrite IH by (intros; apply I; right; auto). rewrite M by (apply I; left; auto). reflexivity.
Qed.
Lemma repetition_split cs : prod_mult cs fact = prod_mult cs (fun m => m) * repetition_weight cs.
Proof.
  unfold repetition_weight, prod_mult. assert (I : forall c, In c (nodup econ_dec cs) -> (1 <= mult cs c)%nat).
  { intros c Hc. apply nodup_In in Hc. apply (proj1 (count_occ_In econ_dec cs c)) in Hc. unfold mult. lia. }
  revert I. generalize (nodup econ_dec cs). intros l. induction l as [|a l IH]; intros I; auto. cbn [fold_right]. rewrite IH by (intros; apply I; right; auto).
  assert (1 <= mult cs a)%nat by (apply I; left; auto). destruct (mult cs a) as [|m]; [lia|]. replace (S m - 1)%nat with m by lia. change (fact (S m)) with (S m * fact m)%nat. rewrite Nat2Z.inj_mul. ring.
Qed.
Lemma repetition_pos cs : 0 < repetition_weight cs.
Proof.
  unfold repetition_weight, prod_mult. induction (nodup econ_dec cs) as [|a l IH]; simpl fold_right; [lia|]. apply Z.mul_pos_pos; auto. assert (H := lt_O_fact (mult cs a - 1)). lia.
Qed.
Lemma weight_integer st maxc ops cs : ops_ok st ops -> Forall (allowed st maxc ops) cs -> enough_legs st ops cs ->
  forall R, counts_ways (carries_out st (length ops)) (all_legs st ops) cs R ->
  combinatorial_factor st ops cs = rat_of_Z (repetition_weight cs * Z.of_nat (length R)).
Proof.
  intros Hok Al En R C. destruct (weight_general st maxc ops cs Hok Al En R C) as (Ca & V). apply canonical_val_inj; auto; [apply rat_of_Z_canonical|].
  rewrite repetition_split in V. destruct (prod_mult_compare cs) as (_ & P & _).
  assert (Nz : ~ (inject_Z (prod_mult cs (fun m => m)) == 0)%Q) by (apply inject_Z_nz; lia). apply (Qmult_inj_r _ _ _ Nz). rewrite V, rat_of_Z_val, <- !inject_Z_mult. apply inject_Z_injective. ring.
Qed.
