(** C70: three creation and three annihilation operators of a general space, one-body densities only. *)
From Coq Require Import Ascii ZArith List Bool Arith Lia.
From Verif Require Import Res RegistryModel CoreModel RationalModel OperatorModel SortSpec SortProofs WickSearchModel WickSearchSpec CountSpec WickCombSpec WickPairSpec WickSearchProofs WickEvalModel CanonModel WickSearchProps WickCombProps WickLinearProps WickMultSpec WickCombProofs.
Import ListNotations.
Local Open Scope Z_scope.
Definition wa_st : osi := mkOSI [mkOS "a"%char General Fermion [] []] [] [].
Lemma wa_space s : is_space wa_st s -> s = 0.
Proof. unfold is_space, num_spaces. simpl. lia. Qed.
Lemma wa_ok : ops_ok wa_st cw_ops.
Proof.
  split; [vm_compute; lia|]. repeat constructor; try (intros i Hi; simpl in Hi; unfold max_spaces in Hi; do 8 (destruct i as [|i]; [try lia; reflexivity|]); lia);
    match goal with H : _ <= ?s < _ |- _ => rewrite (wa_space s H) end; vm_compute; discriminate.
Qed.
Lemma wa_contract o minr maxr : exists r, contract o wa_st (rat_of_Z 1) cw_ops minr maxr (Ok r).
Proof.
  destruct (C56_outcome o wa_st (rat_of_Z 1) cw_ops minr maxr wa_ok) as (r & H).
  destruct (C56_returns o wa_st (rat_of_Z 1) cw_ops minr maxr wa_ok r) as (e & ->); [|vm_compute; discriminate|exact H|exists e; exact H].
  intros s Hs. rewrite (wa_space s Hs). vm_compute. discriminate.
Qed.
Lemma wa_uniform : uniform_weight wa_st 1 cw_ops 0 0 2.
Proof.
  intros cs Al _ L. assert (E : elementary_contractions 5 wa_st 1 cw_ops = Ok [cw_c]) by (vm_compute; reflexivity).
  assert (R : cs = repeat cw_c (length cs)).
  { clear L. induction Al as [|c cs H Al IH]; auto. simpl. f_equal; auto. apply (proj2 (els_allowed _ _ _ _ _ wa_ok E)) in H. destruct H as [<-|[]]. reflexivity. }
  rewrite R in L |- *. set (k := length cs) in *. clearbody k. unfold left_after in L. change (ops_rank cw_ops) with 6 in L.
  assert (X : total_of ec_num_ops (repeat cw_c k) = 2 * Z.of_nat k). { clear. induction k as [|k IH]; auto. cbn [repeat total_of fold_right]. change (fold_right _ 0 (repeat cw_c k)) with (total_of ec_num_ops (repeat cw_c k)). rewrite IH. change (ec_num_ops cw_c) with 2. lia. }
  rewrite X in L. assert (k = 3%nat) as -> by lia. vm_compute. reflexivity.
Qed.
(** The contraction is carried out three times. *)
Lemma wa_triple : exists c, allowed wa_st 1 cw_ops c /\ enough_legs wa_st cw_ops [c; c; c].
Proof.
  exists cw_c. split.
  - assert (E : elementary_contractions 5 wa_st 1 cw_ops = Ok [cw_c]) by (vm_compute; reflexivity). apply (proj2 (els_allowed _ _ _ _ _ wa_ok E)). left. reflexivity.
  - intros [[A s] b] Hk. apply kinds_in in Hk. destruct Hk as (HA & Hs). apply wa_space in Hs. simpl in HA. subst s. destruct A as [|[|A]]; [| |lia]; destruct b; vm_compute; discriminate.
Qed.
