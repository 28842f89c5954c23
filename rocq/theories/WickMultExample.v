(** C70: A creates three, B annihilates three occupied orbitals; fully contracted. *)
From Coq Require Import Ascii ZArith List Bool Arith Lia.
From Verif Require Import Res RegistryModel CoreModel RationalModel OperatorModel SortSpec SortProofs WickSearchModel WickSearchSpec CountSpec WickCombSpec WickPairSpec WickSearchProofs WickEvalModel CanonModel WickSearchProps WickCombProps WickMultSpec.
Import ListNotations.
Local Open Scope Z_scope.
Definition cw_t : term := mkTerm false [] [mkT ["A"%char] [mkI 0 0; mkI 0 1; mkI 0 2] [] Antisymmetric false; mkT ["B"%char] [] [mkI 0 0; mkI 0 1; mkI 0 2] Antisymmetric false].
Lemma cw_contract : contract (mkWT 100 false) wo_st (rat_of_Z 1) cw_ops 0 0 (Ok [(cw_t, mkR 1 3)]).
Proof.
  set (o := mkWT 100 false). assert (S : search 5 o wo_st cw_ops 0 0 = Ok ([cw_c], [[0; 0; 0]])) by (vm_compute; reflexivity).
  exists 5%nat. unfold contract_run. rewrite S. split; [|discriminate]. exists [Ok [(cw_t, mkR 1 3)]]. split; [|reflexivity]. constructor; [|constructor].
  unfold process_single. exists cw_ops, [cw_c; cw_c; cw_c], 1, (Ok (cw_t, 1)). split; [reflexivity|]. split.
  - intros t f H. vm_compute in H. injection H as <- <-.
    destruct (mapM (tensor_score wo_st (tm_tens cw_t)) (tm_tens cw_t)) as [sc| | |] eqn:E; try discriminate E.
    exists (tm_tens cw_t). split; [|vm_compute; reflexivity]. exists sc, sc. split; [exact E|]. split; [reflexivity|]. vm_compute in E. injection E as <-. split; [|reflexivity]. unfold ordered. repeat constructor.
  - vm_compute. reflexivity.
Qed.
Lemma cw_uniform : uniform_weight wo_st 100 cw_ops 0 0 2.
Proof.
  intros cs Al _ L. assert (E : elementary_contractions 5 wo_st 100 cw_ops = Ok [cw_c]) by (vm_compute; reflexivity).
  assert (R : cs = repeat cw_c (length cs)).
  { clear L. induction Al as [|c cs H Al IH]; auto. simpl. f_equal; auto. apply (proj2 (els_allowed _ _ _ _ _ cw_ok E)) in H. destruct H as [<-|[]]. reflexivity. }
  rewrite R in L |- *. set (k := length cs) in *. clearbody k. unfold left_after in L. change (ops_rank cw_ops) with 6 in L.
  assert (X : total_of ec_num_ops (repeat cw_c k) = 2 * Z.of_nat k). { clear. induction k as [|k IH]; auto. cbn [repeat total_of fold_right]. change (fold_right _ 0 (repeat cw_c k)) with (total_of ec_num_ops (repeat cw_c k)). rewrite IH. change (ec_num_ops cw_c) with 2. lia. }
  rewrite X in L. assert (k = 3%nat) as -> by lia. vm_compute. reflexivity.
Qed.
Lemma cw_space s : is_space wo_st s -> s = 0.
Proof. unfold is_space, num_spaces. simpl. lia. Qed.
Lemma cw_slots : let i := mkI 0 in nodup index_dec [i 0; i 1; i 2; i 0; i 1; i 2] = [i 0; i 1; i 2].
Proof.
  intros i. assert (P : forall x l r1 r2, In x l -> (if in_dec index_dec x l then r1 else r2) = r1 :> list index) by (intros x l r1 r2 H; destruct (in_dec index_dec x l); tauto).
  assert (Q : forall x l r1 r2, ~ In x l -> (if in_dec index_dec x l then r1 else r2) = r2 :> list index) by (intros x l r1 r2 H; destruct (in_dec index_dec x l); tauto).
  unfold nodup. rewrite !P by (simpl; tauto). rewrite !Q; auto; intros H; simpl in H; repeat (destruct H as [H|H]; [discriminate H|]); exact H.
Qed.
Lemma cw_not_double : ~ at_most_double wo_st cw_ops.
Proof.
  intros H. destruct (H 0%nat 1%nat 0) as (H1 & _); [simpl; lia|vm_compute; split; [discriminate|reflexivity]|]. destruct (H1 eq_refl) as [X|X]; vm_compute in X; apply X; reflexivity.
Qed.
