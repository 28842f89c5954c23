(** C41: the combinatorial weight of a contraction. *)
From Coq Require Import Ascii ZArith List Bool Arith Lia Permutation QArith.
From Verif Require Import Res RegistryModel CoreModel RationalModel RationalSpec OperatorModel OperatorSpec WickSearchModel WickSearchSpec WickElemProofs WickEvalModel
  CountSpec WickCombSpec WickCombProofs WickSearchProps.
Import ListNotations.
Local Open Scope Z_scope.

(** [R] lists the ways to choose the contracted legs: one set of legs per elementary contraction, disjoint, two choices that
    differ only in the order of the sets being the same way.  Their number is well defined and the weight computed by the code
    is this number exactly if no elementary contraction occurs more than twice. *)
Theorem C41_weight_counts_ways : forall st maxc ops cs, ops_ok st ops -> Forall (allowed st maxc ops) cs -> enough_legs st ops cs ->
  (exists R, counts_ways (carries_out st (length ops)) (all_legs st ops) cs R) /\
  forall R, counts_ways (carries_out st (length ops)) (all_legs st ops) cs R ->
    (combinatorial_factor st ops cs = rat_of_Z (Z.of_nat (length R)) <-> forall c, (mult cs c <= 2)%nat).
Proof. exact weight_exact. Qed.
Print Assumptions C41_weight_counts_ways.
(** In general the weight is too large by the product of (m - 1)! over the multiplicities m. *)
Theorem C41_weight_general : forall st maxc ops cs, ops_ok st ops -> Forall (allowed st maxc ops) cs -> enough_legs st ops cs ->
  forall R, counts_ways (carries_out st (length ops)) (all_legs st ops) cs R ->
    canonical (combinatorial_factor st ops cs) /\
    (Qval (combinatorial_factor st ops cs) * inject_Z (prod_mult cs (fun m => m)) == inject_Z (Z.of_nat (length R)) * inject_Z (prod_mult cs fact))%Q.
Proof. exact weight_general. Qed.
Print Assumptions C41_weight_general.
(** The number of ways does not depend on how it is listed. *)
Theorem C41_ways_well_defined : forall st n legs cs R R', counts_ways (carries_out st n) legs cs R -> counts_ways (carries_out st n) legs cs R' -> length R = length R'.
Proof. exact (fun st n legs cs R R' => counts_ways_unique (carries_out st n) legs cs R R'). Qed.
Print Assumptions C41_ways_well_defined.

(** k occupied pair contractions between two operators with three legs each. *)
Definition cw_ops : oprod := [mkOp ["A"%char] (ws_gm [(3, 0)]); mkOp ["B"%char] (ws_gm [(0, 3)])].
Definition cw_c : econ := [ws_gm [(1, 0)]; ws_gm [(0, 1)]].
Lemma cw_ok : ops_ok wo_st cw_ops.
Proof.
  split; [vm_compute; lia|]. repeat constructor; try (intros i Hi; simpl in Hi; unfold max_spaces in Hi; do 8 (destruct i as [|i]; [try lia; reflexivity|]); lia);
      unfold is_space, num_spaces in *; simpl in *; assert (s = 0) as -> by lia; vm_compute; discriminate.
Qed.
Lemma cw_allowed : allowed wo_st 0 cw_ops cw_c.
Proof.
  apply (al_occ _ _ _ _ 0 0%nat 1%nat).
  - split; [reflexivity|]. repeat constructor; intros i Hi; simpl in Hi; unfold max_spaces in Hi; do 8 (destruct i as [|i]; [try lia; reflexivity|]); lia.
  - vm_compute; split; [discriminate|reflexivity].
  - intros A s HA Hs Ne. unfold is_space, num_spaces in Hs. simpl in Hs. lia.
  - reflexivity.
  - simpl. lia.
  - intros A HA. simpl in HA. destruct A as [|[|A]]; [reflexivity|reflexivity|lia].
  - intros A HA. simpl in HA. destruct A as [|[|A]]; [reflexivity|reflexivity|lia].
  - vm_compute. discriminate.
  - vm_compute. discriminate.
Qed.
Lemma cw_enough k : (k <= 3)%nat -> enough_legs wo_st cw_ops (repeat cw_c k).
Proof.
  intros H [[A s] b] Hk. apply kinds_in in Hk. destruct Hk as (HA & Hs). unfold is_space, num_spaces in Hs. simpl in Hs, HA. assert (s = 0) as -> by lia.
  destruct A as [|[|A]]; [| |lia]; destruct b; do 4 (destruct k as [|k]; [vm_compute; discriminate|]); lia.
Qed.
Lemma cw_all k : Forall (allowed wo_st 0 cw_ops) (repeat cw_c k).
Proof. induction k; simpl; constructor; auto. apply cw_allowed. Qed.
(** Twice the same contraction: 18 ways, weight 18. *)
Example C41_nonvacuous : ops_ok wo_st cw_ops /\ Forall (allowed wo_st 0 cw_ops) [cw_c; cw_c] /\ enough_legs wo_st cw_ops [cw_c; cw_c] /\
  (forall c, (mult [cw_c; cw_c] c <= 2)%nat) /\ combinatorial_factor wo_st cw_ops [cw_c; cw_c] = rat_of_Z 18.
Proof.
  split; [apply cw_ok|]. split; [apply (cw_all 2)|]. split; [apply (cw_enough 2); lia|]. split; [|vm_compute; reflexivity].
  intros c. unfold mult. cbn [count_occ]. destruct (econ_dec cw_c c); lia.
Qed.
(** Three times: the full contraction of three creation with three annihilation operators can be carried out in 6 ways; the code's weight is 12. *)
Theorem C41_multiplicity_refuted : exists st maxc ops cs R, ops_ok st ops /\ Forall (allowed st maxc ops) cs /\ enough_legs st ops cs /\
  counts_ways (carries_out st (length ops)) (all_legs st ops) cs R /\ length R = 6%nat /\ combinatorial_factor st ops cs = rat_of_Z 12.
Proof.
  assert (En := cw_enough 3 (le_n 3)). destruct (weight_exact wo_st 0 cw_ops (repeat cw_c 3) cw_ok (cw_all 3) En) as ((R & C) & _).
  exists wo_st, 0, cw_ops, (repeat cw_c 3), R. repeat (split; [first [apply cw_ok|apply cw_all|exact En|exact C]|]). split; [|vm_compute; reflexivity].
  destruct (weight_general wo_st 0 cw_ops (repeat cw_c 3) cw_ok (cw_all 3) En R C) as (_ & V).
  replace (combinatorial_factor wo_st cw_ops (repeat cw_c 3)) with (rat_of_Z 12) in V by (vm_compute; reflexivity).
  change (prod_mult (repeat cw_c 3) (fun m => m)) with 3 in V. change (prod_mult (repeat cw_c 3) fact) with 6 in V.
  unfold Qeq, Qval, Qdiv, Qinv in V. simpl in V. lia.
Qed.
Print Assumptions C41_multiplicity_refuted.
