(** C58: gen_op. *)
From Coq Require Import ZArith QArith List Bool Ascii Lia.
From Verif Require Import Res RegistryModel RegistryProofs RegistryProps CoreModel RationalModel AlgebraModel AlgebraSpec TextModel OperatorModel OperatorSpec OperatorProofs2 GenOpModel GenOpSpec GenOpProofs GenOpProofs2.
Import ListNotations.
Local Open Scope Z_scope.

(** The operators of gen_op(label, rank, cre, ann, diagonal) are exactly the operators with [rank] creation legs in
    the spaces of [cre] and [rank] annihilation legs in the spaces of [ann], each once with coefficient one; with
    [diagonal] false those with all legs in one space are left out. *)
Theorem C58_gen_op : forall st label rank cre ann diagonal, reachable st -> (length (space_info st) <= 8)%nat -> space_list st cre -> space_list st ann ->
  exists e, gen_op st label rank cre ann diagonal = Ok e /\ wf oprod_ltb e /\
    forall k, ((exists o, k = [o] /\ component st label (Z.max 0 rank) cre ann o /\ (diagonal = true \/ ~ one_space st o)) -> (coef oprod_eqb e k == 1)%Q) /\
      (~ (exists o, k = [o] /\ component st label (Z.max 0 rank) cre ann o /\ (diagonal = true \/ ~ one_space st o)) -> (coef oprod_eqb e k == 0)%Q).
Proof. exact (fun st label rank cre ann diagonal H Hn SC SA => gen_op_ok st label rank cre ann diagonal (reachable_ok st H) Hn SC SA). Qed.
Print Assumptions C58_gen_op.

(** From rank two on, a label that is not registered ends the call with an exception. *)
Theorem C58_unknown_label : forall st label rank cre ann diagonal c, reachable st -> 2 <= rank -> label_to_space st c = Throw ->
  (In c cre \/ (In c ann /\ cre <> [])) -> gen_op st label rank cre ann diagonal = Throw.
Proof. exact (fun st label rank cre ann diagonal c H => gen_op_unknown st label rank cre ann diagonal c (reachable_ok st H)). Qed.
Print Assumptions C58_unknown_label.

(** [diagonal=False] does not leave out every component with as many creation as annihilation legs in each space. *)
Theorem C58_diagonal_refuted : exists st label rank cre ann e o, reachable st /\ space_list st cre /\ space_list st ann /\
  gen_op st label rank cre ann false = Ok e /\ (coef oprod_eqb e [o] == 1)%Q /\
  forall s, space st s -> cre_of (op_gm o) s = ann_of (op_gm o) s.
Proof.
  assert (S : space_list ex_st2 ["o"%char; "v"%char]).
  { split; [constructor; [intros [|[]]; discriminate|constructor; [intros []|constructor]]|]. repeat constructor; try (apply is_letter_ok; reflexivity); eexists; reflexivity. }
  exists ex_st2, ["T"%char], 2, ["o"%char; "v"%char], ["o"%char; "v"%char]. eexists. eexists. split; [apply C10_nonvacuous|]. split; [exact S|]. split; [exact S|].
  split; [vm_compute; reflexivity|]. split.
  - instantiate (1 := match component_op ex_st2 ["T"%char] (component_text ["o"%char; "v"%char] ["v"%char; "o"%char]) with Ok o => o | _ => mkOp [] [] end). vm_compute. reflexivity.
  - intros s [H1 H2]. assert (E : s = 0 \/ s = 1) by (change (num_spaces ex_st2) with 2 in H2; lia). destruct E as [-> | ->]; reflexivity.
Qed.
Print Assumptions C58_diagonal_refuted.

(** Nine components of rank two over two spaces; an operator meeting the description. *)
Example C58_nonvacuous : space_list ex_st2 ["o"%char; "v"%char] /\ label_to_space ex_st2 "x" = Throw /\
  (exists e, gen_op ex_st2 ["T"%char] 2 ["o"%char; "v"%char] ["o"%char; "v"%char] true = Ok e /\ length e = 9%nat) /\
  (exists e, gen_op ex_st2 ["T"%char] 2 ["o"%char; "v"%char] ["o"%char; "v"%char] false = Ok e /\ length e = 7%nat) /\
  (exists e, gen_op ex_st2 ["T"%char] 2 ["v"%char] ["o"%char] false = Ok e /\ map snd e = [rat_of_Z 1]).
Proof.
  split; [split; [constructor; [intros [|[]]; discriminate|constructor; [intros []|constructor]]|]; repeat constructor; try (apply is_letter_ok; reflexivity); eexists; reflexivity|].
  split; [reflexivity|]. split; [|split]; eexists; (split; [vm_compute; reflexivity|reflexivity]).
Qed.
