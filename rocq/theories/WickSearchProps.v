(** C37-C40: next_permutation loops, elementary contractions, the contraction search and its buffer. *)
From Coq Require Import Ascii ZArith List Bool Arith Lia Permutation Sorted.
From Verif Require Import Res PartitionsSpec RegistryModel CoreModel OperatorModel OperatorSpec NextPermModel NextPermProofs
  WickSearchModel WickSearchSpec WickElemProofs2 WickCompProofs WickSearchProofs.
Import ListNotations.
Local Open Scope Z_scope.

(** ** C37 *)
(** [next_perm] is the lexicographic successor among the rearrangements; [None] iff there is none. *)
Theorem C37_next_is_successor : forall l,
  match next_perm l with
  | Some l' => Permutation l l' /\ lexlt l l' /\ forall p, Permutation l p -> lexlt l p -> p = l' \/ lexlt l' p
  | None => forall p, Permutation l p -> ~ lexlt l p
  end.
Proof.
  exact (fun l => match next_perm l as o return (next_perm l = o -> match o with
    | Some l' => Permutation l l' /\ lexlt l l' /\ forall p, Permutation l p -> lexlt l p -> p = l' \/ lexlt l' p
    | None => forall p, Permutation l p -> ~ lexlt l p end) with
    | Some l' => fun E => conj (np_perm _ _ E) (conj (np_lt _ _ E) (fun p => np_next l l' p E))
    | None => fun E p P H => match sorted_max _ _ (np_none _ E) P with
                             | or_introl e => lex_irrefl l (eq_ind p (lexlt l) H l e)
                             | or_intror h => lex_irrefl l (lex_trans _ _ _ H h) end
    end eq_refl).
Qed.
Print Assumptions C37_next_is_successor.

(** The do-while loop started on a sorted vector terminates and visits every distinct rearrangement exactly once,
    in lexicographic order. *)
Theorem C37_enumeration_exact : forall l, StronglySorted Z.le l -> exists r,
  (forall fuel, (fact (length l) <= fuel)%nat -> np_loop fuel l = Some r) /\
  (forall p, In p r <-> Permutation l p) /\ NoDup r /\ StronglySorted lexlt r.
Proof. exact (fun l H => ex_intro _ (np_visited l) (np_visited_spec l H)). Qed.
Print Assumptions C37_enumeration_exact.
Example C37_nonvacuous : StronglySorted Z.le [0; 1; 1] /\ np_loop 6 [0; 1; 1] = Some [[0; 1; 1]; [1; 0; 1]; [1; 1; 0]].
Proof. split; [repeat constructor; lia|reflexivity]. Qed.

(** ** C38 *)
(** The list of elementary contractions contains exactly the allowed ones (occupied and unoccupied pairs,
    cumulant contractions of general spaces), each once; no undefined behaviour occurs. *)
Theorem C38_elementary_exact : forall st maxc ops, ops_ok st ops -> exists L f0,
  (forall fuel, (f0 <= fuel)%nat -> elementary_contractions fuel st maxc ops = Ok L) /\ NoDup L /\
  forall c, In c L <-> allowed st maxc ops c.
Proof. exact elementary_exact. Qed.
Print Assumptions C38_elementary_exact.

Definition ws_st : osi := mkOSI [mkOS "o"%char Occupied Fermion [] []; mkOS "a"%char General Fermion [] []; mkOS "v"%char Unoccupied Fermion [] []] [] [].
Definition ws_gm (l : list (Z * Z)) : gmat := l ++ repeat (0, 0) (8 - length l).
Definition ws_ops : oprod := [mkOp ["T"%char] (ws_gm [(1, 1); (1, 1); (0, 1)]); mkOp ["F"%char] (ws_gm [(1, 1); (1, 1); (2, 0)])].
Example C38_nonvacuous : ops_ok ws_st ws_ops /\ exists L, elementary_contractions 50 ws_st 2 ws_ops = Ok L /\ length L = 5%nat.
Proof.
  split; [|eexists; split; vm_compute; reflexivity]. split; [vm_compute; lia|].
  assert (G : forall g, length g = 8%nat -> forallb (fun p => (0 <=? fst p) && (0 <=? snd p)) g = true -> skipn 3 g = repeat (0, 0) 5 ->
    gm_valid ws_st g /\ forall l, nonneg_counts ws_st (mkOp l g)).
  { intros g L F K. do 8 (destruct g as [|[? ?] g]; [discriminate|]). destruct g; [|discriminate]. simpl in F, K. injection K as -> -> -> -> -> -> -> -> -> ->.
    rewrite !andb_true_iff, !Z.leb_le in F. split.
    - split; [reflexivity|]. intros i Hi. simpl in Hi. unfold max_spaces in Hi. do 8 (destruct i as [|i]; [try lia; reflexivity|]). lia.
    - intros l s Hs. unfold num_spaces in Hs. simpl in Hs. assert (s = 0 \/ s = 1 \/ s = 2) as [-> | [-> | ->]] by lia; simpl; tauto. }
  constructor; [|constructor; [|constructor]]; (split; [|destruct ws_ops]; apply G; reflexivity).
Qed.

(** ** C39 *)
(** When no compatible multiset has more than 100 elements, the search returns exactly the multisets of
    elementary contractions that use no more legs than the operators have and leave between minrank and maxrank
    operators, each once, and leaves the table of free operators as it was. *)
Theorem C39_search_exact : forall fuel st maxc ops els minrank maxrank, ops_ok st ops ->
  elementary_contractions fuel st maxc ops = Ok els -> forall depth, (101 <= depth)%nat ->
  (forall cs, is_multiset els cs -> compatible st els ops cs -> (length cs <= 100)%nat) ->
  exists L, composite_contractions depth st els ops minrank maxrank = Ok (L, map op_gm ops) /\ NoDup L /\
    forall cs, In cs L <-> is_multiset els cs /\ compatible st els ops cs /\ minrank <= left_over els ops cs <= maxrank.
Proof. exact search_ok. Qed.
Print Assumptions C39_search_exact.
Example C39_nonvacuous : exists els L, elementary_contractions 50 ws_st 2 ws_ops = Ok els /\
  composite_contractions 101 ws_st els ws_ops 0 20 = Ok (L, map op_gm ws_ops) /\ length L = 20%nat /\
  composite_contractions 101 ws_st els ws_ops 3 4 = Ok ([[0; 1; 2; 4]; [0; 3; 4]], map op_gm ws_ops).
Proof. eexists _, _. split; [vm_compute; reflexivity|]. split; [vm_compute; reflexivity|]. split; [reflexivity|]. vm_compute. reflexivity. Qed.

(** ** C40 *)
(** The search writes outside its 100-entry buffer exactly when some compatible multiset has more than 100 elements. *)
Theorem C40_overflow_iff : forall fuel st maxc ops els minrank maxrank, ops_ok st ops ->
  elementary_contractions fuel st maxc ops = Ok els -> forall depth, (101 <= depth)%nat ->
  (composite_contractions depth st els ops minrank maxrank = UB <->
   exists cs, is_multiset els cs /\ compatible st els ops cs /\ (100 < length cs)%nat).
Proof. exact search_ub. Qed.
Print Assumptions C40_overflow_iff.
(** Products of at most 201 second-quantized operators are safe. *)
Theorem C40_safe_up_to_201 : forall fuel st maxc ops els minrank maxrank, ops_ok st ops ->
  elementary_contractions fuel st maxc ops = Ok els -> forall depth, (101 <= depth)%nat ->
  fold_left (fun a o => a + op_num o) ops 0 <= 201 ->
  exists L, composite_contractions depth st els ops minrank maxrank = Ok (L, map op_gm ops).
Proof. exact search_201. Qed.
Print Assumptions C40_safe_up_to_201.
(** 202 operators are not always safe: 101 creation operators contracted with 101 annihilation operators. *)
Definition wo_st : osi := mkOSI [mkOS "o"%char Occupied Fermion [] []] [] [].
Definition wo_ops : oprod := [mkOp ["A"%char] (ws_gm [(101, 0)]); mkOp ["B"%char] (ws_gm [(0, 101)])].
Theorem C40_overflow_refuted : exists st ops els, ops_ok st ops /\ elementary_contractions 1 st 100 ops = Ok els /\
  fold_left (fun a o => a + op_num o) ops 0 = 202 /\
  forall depth minrank maxrank, (101 <= depth)%nat -> composite_contractions depth st els ops minrank maxrank = UB.
Proof.
  exists wo_st, wo_ops, [[ws_gm [(1, 0)]; ws_gm [(0, 1)]]].
  assert (OK : ops_ok wo_st wo_ops).
  { split; [vm_compute; lia|]. repeat constructor; try (intros i Hi; simpl in Hi; unfold max_spaces in Hi; do 8 (destruct i as [|i]; [try lia; reflexivity|]); lia);
      unfold is_space, num_spaces in *; simpl in *; assert (s = 0) as -> by lia; vm_compute; discriminate. }
  assert (E : elementary_contractions 1 wo_st 100 wo_ops = Ok [[ws_gm [(1, 0)]; ws_gm [(0, 1)]]]) by (vm_compute; reflexivity).
  split; [exact OK|]. split; [exact E|]. split; [reflexivity|].
  intros depth minrank maxrank Hd. apply (search_ub 1 wo_st 100 wo_ops _ minrank maxrank OK E depth Hd).
  exists (repeat 0 101). split; [split|split].
  - clear. generalize 101%nat. intros n. induction n as [|n IH]; simpl; constructor; auto. apply Forall_forall. intros x Hx. apply repeat_spec in Hx. lia.
  - apply Forall_forall. intros x Hx. apply repeat_spec in Hx. subst. simpl. lia.
  - intros A s HA Hs. unfold is_space, num_spaces in Hs. simpl in Hs, HA. assert (s = 0) as -> by lia.
    destruct A as [|[|A]]; [| |lia]; vm_compute; split; discriminate.
  - rewrite repeat_length. lia.
Qed.
Print Assumptions C40_overflow_refuted.
