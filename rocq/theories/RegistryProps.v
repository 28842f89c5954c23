(** C10, C11: the orbital-space registry. *)
From Coq Require Import ZArith List Bool Ascii String Lia.
From Verif Require Import Res RegistryModel RegistryProofs.
Import ListNotations.
Local Open Scope Z_scope.

(** C10: after any history of accepted calls ([reachable]): every registered space is found under
    its label, every known label denotes a registered space, an unknown label throws, an index
    name belongs to at most one space and occurs once in it. *)
Theorem C10_registry_consistent : forall st, reachable st ->
  (forall i, 0 <= i < num_spaces st -> exists l, space_label st i = Ok l /\ label_to_space st l = Ok i) /\
  (forall l i, label_to_space st l = Ok i -> space_label st i = Ok l /\ 0 <= i < num_spaces st) /\
  (forall l, (forall i, 0 <= i < num_spaces st -> space_label st i <> Ok l) -> label_to_space st l = Throw) /\
  (forall i j ni nj x, space_indices st i = Ok ni -> space_indices st j = Ok nj ->
     In x ni -> In x nj -> i = j) /\
  (forall i ni, space_indices st i = Ok ni -> NoDup ni) /\
  (forall s e, In s (space_info st) -> In e (os_elementary s) -> 0 <= e < num_spaces st).
Proof. exact registry_consistent. Qed.
Print Assumptions C10_registry_consistent.

(** C11: a duplicate label is rejected without any effect. *)
Theorem C11_duplicate_label_safe : forall st l ft sp names el, (exists i, label_to_space st l = Ok i) ->
  add_space st l ft sp names el = (st, Throw).
Proof. exact add_space_dup_label. Qed.
Print Assumptions C11_duplicate_label_safe.

(** C11 refuted: every other rejected call leaves the new label registered, pointing to a space that
    does not exist, so that looking the space up is undefined behaviour. *)
Theorem C11_rejected_call_refuted : forall st l ft sp names el st',
  reachable st -> label_to_space st l = Throw -> add_space st l ft sp names el = (st', Throw) ->
  label_to_space st' l = Ok (num_spaces st') /\ space_label st' (num_spaces st') = UB /\
  num_spaces st' = num_spaces st.
Proof. exact (fun st l ft sp names el st' R => add_space_rejected st l ft sp names el st' (reachable_ok st R)). Qed.
Print Assumptions C11_rejected_call_refuted.

(** C11 refuted: and the next accepted call makes both labels denote the same space. *)
Theorem C11_label_alias_refuted : forall st l ft sp names el st1 l2 ft2 sp2 names2 el2 st2,
  reachable st -> label_to_space st l = Throw -> add_space st l ft sp names el = (st1, Throw) ->
  l2 <> l -> add_space st1 l2 ft2 sp2 names2 el2 = (st2, Ok tt) ->
  label_to_space st2 l = label_to_space st2 l2 /\ label_to_space st2 l = Ok (num_spaces st1).
Proof.
  exact (fun st l ft sp names el st1 l2 ft2 sp2 names2 el2 st2 R =>
    add_space_aliases st l ft sp names el st1 l2 ft2 sp2 names2 el2 st2 (reachable_ok st R)).
Qed.
Print Assumptions C11_label_alias_refuted.

Definition ex_o := CAdd "o"%char Fermion Occupied [["i"%char]; ["j"%char]] [].
Definition ex_v := CAdd "v"%char Fermion Unoccupied [["a"%char]; ["b"%char]] ["o"%char; "v"%char].
Definition ex_st1 := fst (reg_step reset_space ex_o).
Definition ex_st2 := fst (reg_step ex_st1 ex_v).
Example C10_nonvacuous : reachable ex_st2 /\ num_spaces ex_st2 = 2 /\ label_to_space ex_st2 "v" = Ok 1.
Proof.
  split; [|split; reflexivity]. apply (RS ex_st1 ex_v); [|reflexivity]. apply (RS reset_space ex_o); [constructor|reflexivity].
Qed.
Example C11_witness : exists st', add_space ex_st2 "x" Fermion General [["i"%char]] [] = (st', Throw)
  /\ label_to_space ex_st2 "x" = Throw /\ label_to_space st' "x" = Ok 2 /\ space_label st' 2 = UB.
Proof. eexists. repeat split; reflexivity. Qed.
