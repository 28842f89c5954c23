(** C42, C43: the canonical form of a contraction. *)
From Coq Require Import Ascii ZArith List Bool Arith Lia Permutation Sorted.
From Verif Require Import Res RegistryModel CoreModel SortSpec OperatorModel OperatorSpec WickSearchModel WickSearchSpec WickEvalModel
  WickGraphSpec WickGraphProofs WickGraphProofs2 WickSearchProps WickCombProps.
Import ListNotations.
Local Open Scope Z_scope.

(** The result is a rearrangement of the operators that exchanges no two joined operators, with the matching rearrangement of the
    contractions and the fermionic sign of the exchanges; no other such rearrangement is preferred. *)
Theorem C42_symmetry : forall st ops cs ops' cs' s, ops_ok st ops -> canonicalize_graph st ops cs (ops', cs', s) ->
  exists p q, rearrangement (length ops) p /\ rearrangement (length cs) q /\ keeps_joined_order st cs p /\
    ops' = pick_ops ops p /\ cs' = pick_cons cs p q /\ s = exchange_sign (odd_op ops) p /\
    forall p' q', rearrangement (length ops) p' -> rearrangement (length cs) q' -> keeps_joined_order st cs p' ->
      ~ preferred (pick_ops ops p', pick_cons cs p' q') (ops', cs').
Proof. exact canon_spec. Qed.
Print Assumptions C42_symmetry.
(** There is always a result. *)
Theorem C42_defined : forall st ops cs, exists r, canonicalize_graph st ops cs r.
Proof. exact canon_exists. Qed.
Print Assumptions C42_defined.
(** The comparison handed to [std::sort] is a strict weak order on the candidates. *)
Theorem C42_comparison : forall st ops cs, let C := fun g => In g (graphs st ops cs) in let lt := graph_less ops cs in
  (forall a, C a -> lt a a = false) /\
  (forall a b c, C a -> C b -> C c -> lt a b = true -> lt b c = true -> lt a c = true) /\
  (forall a b c, C a -> C b -> C c -> lt a b = false -> lt b a = false -> lt b c = false -> lt c b = false -> lt a c = false /\ lt c a = false).
Proof. exact less_swo. Qed.
Print Assumptions C42_comparison.
(** Two contractions that differ by an allowed rearrangement have the same canonical form. *)
Theorem C42_canonical : forall st ops cs p q ops1 cs1 s1 ops2 cs2 s2, ops_ok st ops -> Forall (fun c => length c = length ops) cs ->
  rearrangement (length ops) p -> rearrangement (length cs) q -> keeps_joined_order st cs p ->
  canonicalize_graph st ops cs (ops1, cs1, s1) -> canonicalize_graph st (pick_ops ops p) (pick_cons cs p q) (ops2, cs2, s2) ->
  ops1 = ops2 /\ cs1 = cs2.
Proof. exact canon_invariant. Qed.
Print Assumptions C42_canonical.

(** Whatever order [std::sort] gives to equivalent candidates: same operators, same contractions, and the same sign if no operator
    with an odd number of legs occurs twice. *)
Theorem C43_sign_unique : forall st ops cs ops1 cs1 s1 ops2 cs2 s2, ops_ok st ops ->
  canonicalize_graph st ops cs (ops1, cs1, s1) -> canonicalize_graph st ops cs (ops2, cs2, s2) ->
  ops1 = ops2 /\ cs1 = cs2 /\
  ((forall A B, (A < B < length ops)%nat -> odd_op ops A = true -> nth A ops (mkOp [] gm_zero) <> nth B ops (mkOp [] gm_zero)) -> s1 = s2).
Proof. exact sign_unique. Qed.
Print Assumptions C43_sign_unique.

(** Two odd operators B, A: free they are exchanged with sign -1, joined by a pair contraction they stay. *)
Definition wg_A : oper := mkOp ["A"%char] (ws_gm [(0, 1)]).
Definition wg_B : oper := mkOp ["B"%char] (ws_gm [(1, 0)]).
Lemma wg_ok : ops_ok wo_st [wg_B; wg_A] /\ ops_ok wo_st [wg_A; wg_A].
Proof.
  split; (split; [vm_compute; lia|]); repeat constructor; try (intros i Hi; simpl in Hi; unfold max_spaces in Hi; do 8 (destruct i as [|i]; [try lia; reflexivity|]); lia);
      unfold is_space, num_spaces in *; simpl in *; assert (s = 0) as -> by lia; vm_compute; discriminate.
Qed.
Example C42_nonvacuous : ops_ok wo_st [wg_B; wg_A] /\ canonicalize_graph wo_st [wg_B; wg_A] [] ([wg_A; wg_B], [], -1) /\
  canonicalize_graph wo_st [wg_B; wg_A] [cw_c] ([wg_B; wg_A], [cw_c], 1) /\ joined wo_st [cw_c] 0 1.
Proof.
  split; [apply wg_ok|]. split; [|split].
  - exists ([1; 0], []), [([0; 1], [])], (-1). split; [vm_compute; apply perm_swap|]. split; [repeat constructor|]. split; reflexivity.
  - exists ([0; 1], [0]), [], 1. split; [vm_compute; apply Permutation_refl|]. split; [repeat constructor|]. split; reflexivity.
  - exists cw_c, 0. repeat split; try (vm_compute; congruence); [left; auto|left; vm_compute; reflexivity].
Qed.
(** The hypothesis on odd operators is met by [B; A] and cannot be dropped: for A A both signs are possible. *)
Example C43_nonvacuous : forall A B, (A < B < length [wg_B; wg_A])%nat -> odd_op [wg_B; wg_A] A = true -> nth A [wg_B; wg_A] (mkOp [] gm_zero) <> nth B [wg_B; wg_A] (mkOp [] gm_zero).
Proof. intros A B L _. simpl in L. assert (A = 0%nat) as -> by lia. assert (B = 1%nat) as -> by lia. simpl. discriminate. Qed.
Theorem C43_equal_odd_operators_refuted : exists st ops cs ops' cs', ops_ok st ops /\
  canonicalize_graph st ops cs (ops', cs', 1) /\ canonicalize_graph st ops cs (ops', cs', -1).
Proof.
  exists wo_st, [wg_A; wg_A], [], [wg_A; wg_A], []. split; [apply wg_ok|]. split.
  - exists ([0; 1], []), [([1; 0], [])], 1. split; [vm_compute; apply Permutation_refl|]. split; [repeat constructor|]. split; reflexivity.
  - exists ([1; 0], []), [([0; 1], [])], (-1). split; [vm_compute; apply perm_swap|]. split; [repeat constructor|]. split; reflexivity.
Qed.
Print Assumptions C43_equal_odd_operators_refuted.
