(** C57: printing an expression and parsing it back. *)
From Coq Require Import ZArith List Bool Ascii String Lia.
From Verif Require Import Res RegistryModel RegistryProofs RegistryProps CoreModel RationalModel RationalSpec AlgebraModel AlgebraSpec AlgebraProofs DecModel TextModel TextSpec ExprTextModel ExprTextSpec ExprTextProofs4 ExprTextProofs5 ExprTextProofs6.
Import ListNotations.
Local Open Scope Z_scope.

(** C57: the text of an expression, split at its newlines and parsed line by line, gives the same terms with the same coefficients,
    unless the first coefficient is printed against a label ([glued]). *)
Theorem C57_roundtrip : forall st e, reachable st -> wf term_ltb e -> Forall (fun x => printable_term st (fst x) /\ in_int (snd x)) e -> (forall x e', e = x :: e' -> ~ glued x) ->
  exists s, expr_str st e = Ok s /\ string_to_expr st s = Ok (map (fun x => (reread st Antisymmetric (fst x), snd x)) e).
Proof. exact expr_roundtrip. Qed.
Print Assumptions C57_roundtrip.
(** C57: and so an expression equal ([==]) to the one printed. *)
Theorem C57_equal : forall st e, reachable st -> wf term_ltb e -> Forall (fun x => printable_term st (fst x) /\ in_int (snd x)) e -> (forall x e', e = x :: e' -> ~ glued x) ->
  exists s e', expr_str st e = Ok s /\ string_to_expr st s = Ok e' /\ mequal term_eqb e' e = true.
Proof. exact expr_roundtrip_equal. Qed.
Print Assumptions C57_equal.
(** C57: one term with its coefficient, as printed by [Term::str], parses back under any symmetry, with no exception for [glued]. *)
Theorem C57_term : forall st t c, reachable st -> printable_term st t -> canonical c -> in_int c -> num c <> 0 ->
  exists s, Term_str st c t = Ok s /\ forall sym, make_expression st s sym = Ok [(reread st sym t, c)].
Proof. exact Term_roundtrip. Qed.
Print Assumptions C57_term.
(** C57 fails for every glued first term: the digit is read as part of the first label too, and the result is a different expression. *)
Theorem C57_glued_misread : forall st t c, reachable st -> printable_term st t -> canonical c -> glued (t, c) ->
  exists s, entry_str st true (t, c) = Ok s /\ no_newline s /\ forall sym, make_expression st s sym = Ok [(reread st sym (glue t c), c)].
Proof. exact glued_misread. Qed.
Print Assumptions C57_glued_misread.
Theorem C57_glued_refuted : forall st t c, reachable st -> printable_term st t -> canonical c -> glued (t, c) ->
  exists s e', expr_str st [(t, c)] = Ok s /\ string_to_expr st s = Ok e' /\ mequal term_eqb e' [(t, c)] = false.
Proof. exact glued_differs. Qed.
Print Assumptions C57_glued_refuted.

Definition tx (s : string) : text := list_ascii_of_string s.
(** Any text without a recognisable piece is read as the number 1. *)
Theorem C57_garbage_refuted : exists s, (forall st, string_to_expr st s = Ok [(mkTerm false [] [], mkR 1 1)]) /\ s = tx "hello".
Proof. exists (tx "hello"). split; reflexivity. Qed.
Print Assumptions C57_garbage_refuted.
(** The normal-order flag of a term with a bosonic operator is lost. *)
Definition ex_bos := CAdd "x"%char Boson Unoccupied [["i"%char]] [].
Definition ex_bst := fst (reg_step reset_space ex_bos).
Theorem C57_flag_refuted : exists st t c s, reachable st /\ printable_term st t /\ canonical c /\ in_int c /\ Term_str st c t = Ok s /\
  tm_no t = true /\ make_expression st s Antisymmetric = Ok [(mkTerm false (tm_ops t) (tm_tens t), c)].
Proof.
  exists ex_bst, (mkTerm true [mkSQ true (mkI 0 0)] []), (mkR 1 1), (tx "{ b+(x0) }"). split; [apply (RS reset_space ex_bos); [constructor|reflexivity]|]. split; [|repeat split; try reflexivity; unfold max_int; cbn; lia].
  split; [constructor|]. constructor; [|constructor]. split; [unfold max_int; cbn; lia|]. exists "x"%char. split; reflexivity.
Qed.
Print Assumptions C57_flag_refuted.

Definition ex_T := mkT (tx "T") [mkI 0 0] [mkI 1 0] Antisymmetric false.
Definition ex_ops := [mkSQ true (mkI 1 0); mkSQ false (mkI 0 0)].
Definition ex_e : expression := [(mkTerm false [] [], mkR (-1) 1); (mkTerm false [] [ex_T], mkR 3 2); (mkTerm true ex_ops [ex_T], mkR 2 1)].
Lemma ex_printable : printable_term ex_st2 (mkTerm true ex_ops [ex_T]) /\ printable_term ex_st2 (mkTerm false [] [ex_T]).
Proof.
  assert (I0 : printable_index ex_st2 (mkI 0 0)) by (split; [unfold max_int; cbn; lia|exists "o"%char; split; reflexivity]).
  assert (I1 : printable_index ex_st2 (mkI 1 0)) by (split; [unfold max_int; cbn; lia|exists "v"%char; split; reflexivity]).
  assert (PT : printable_tensor ex_st2 ex_T) by (split; [exists "T"%char, []; split; [reflexivity|split; [reflexivity|constructor]]|split; (constructor; [assumption|constructor])]).
  split; (split; [constructor; [exact PT|constructor]|]); [|constructor]. constructor; [exact I1|constructor; [exact I0|constructor]].
Qed.
Example C57_nonvacuous : reachable ex_st2 /\ wf term_ltb ex_e /\ Forall (fun x => printable_term ex_st2 (fst x) /\ in_int (snd x)) ex_e /\ (forall x e', ex_e = x :: e' -> ~ glued x) /\
  expr_str ex_st2 ex_e = Ok (tx "-1" ++ [newline] ++ tx "+3/2 T^{v0}_{o0}" ++ [newline] ++ tx "+2 T^{v0}_{o0} { a+(v0) a-(o0) }").
Proof.
  split; [apply C10_nonvacuous|]. destruct ex_printable as [P1 P2]. split; [|split; [|split; [|reflexivity]]].
  - split; [|split].
    + repeat constructor.
    + repeat constructor.
    + unfold mnz. repeat constructor; cbn; discriminate.
  - repeat (constructor; [split; [|unfold in_int, max_int; cbn; lia]|]); auto. split; constructor.
  - intros x e' E. injection E as <- _. intros (_ & N & _). cbn in N. lia.
Qed.
Example C57_glued_nonvacuous : glued (mkTerm true ex_ops [ex_T], mkR 2 1) /\ canonical (mkR 2 1) /\
  expr_str ex_st2 [(mkTerm true ex_ops [ex_T], mkR 2 1)] = Ok (tx "2T^{v0}_{o0} { a+(v0) a-(o0) }") /\
  string_to_expr ex_st2 (tx "2T^{v0}_{o0} { a+(v0) a-(o0) }") = Ok [(mkTerm true ex_ops [mkT (tx "2T") [mkI 0 0] [mkI 1 0] Antisymmetric false], mkR 2 1)].
Proof. repeat split; try reflexivity; cbn; try lia; discriminate. Qed.
