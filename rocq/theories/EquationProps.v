(** C49, C50: many-body equations and einsum letters. *)
From Coq Require Import String ZArith List Bool Ascii Lia Sorting.Permutation Sorting.Sorted.
From Verif Require Import Res RegistryModel RegistryProofs RegistryProps CoreModel RationalModel AlgebraModel TextModel TextSpec TextProps EquationModel EquationSpec EquationProofs EquationProofs2.
Import ListNotations.
Local Open Scope Z_scope.

(** C49: every term of the expression goes into exactly one equation ([equation_of]: same coefficient and tensors, creation
    indices below, annihilation indices above), under the key built from the spaces of its indices; within a key the terms keep
    their order; no key is empty; keys increase. *)
Theorem C49_manybody : forall st label e, registered_ops st e -> exists m, to_manybody st label e = Ok m /\
  StronglySorted (fun a b => text_ltb a b = true) (map fst m) /\
  (forall k l, In (k, l) m -> l <> [] /\ l = map (equation_of label) (filter (fun x => text_eqb (key_of st x) k) e)) /\
  (forall x, In x e -> In (key_of st x) (map fst m)) /\
  Permutation (concat (map snd m)) (map (equation_of label) e).
Proof. exact manybody_ok. Qed.
Print Assumptions C49_manybody.
(** C49: two terms share a key iff they have as many creation and as many annihilation indices in every space (no space being
    labelled by the separator). *)
Theorem C49_key : forall st x y, reachable st -> label_to_space st "|" = Throw ->
  (forall o, In o (tm_ops (fst x) ++ tm_ops (fst y)) -> 0 <= isp (s_idx o) < num_spaces st) ->
  key_of st x = key_of st y <-> forall sp, in_space (creators (tm_ops (fst x))) sp = in_space (creators (tm_ops (fst y))) sp /\
    in_space (annihilators (tm_ops (fst x))) sp = in_space (annihilators (tm_ops (fst y))) sp.
Proof. exact key_iff. Qed.
Print Assumptions C49_key.
(** C49: the equation determines the term if creation operators come first (as in every result of the Wick engine). *)
Theorem C49_determines : forall label x y, cre_first (tm_ops (fst x)) -> cre_first (tm_ops (fst y)) -> tm_no (fst x) = tm_no (fst y) ->
  equation_of label x = equation_of label y -> x = y.
Proof. exact equation_inj. Qed.
Print Assumptions C49_determines.
(** C49: the right-hand side as an expression. *)
Theorem C49_rhs_expression : forall e, rat_is0 (eq_factor e) = false -> rhs_expression e = [(eq_rhs e, eq_factor e)].
Proof. exact rhs_expression_ok. Qed.
Print Assumptions C49_rhs_expression.
(** C49 refuted: without that, different terms become the same equation: the order of the operators is lost. *)
Theorem C49_order_lost_refuted : exists label x y, x <> y /\ tm_no (fst x) = tm_no (fst y) /\ equation_of label x = equation_of label y.
Proof.
  exists ["R"%char], (mkTerm false [mkSQ true (mkI 1 0); mkSQ false (mkI 0 0)] [], mkR 1 1), (mkTerm false [mkSQ false (mkI 0 0); mkSQ true (mkI 1 0)] [], mkR 1 1).
  split; [discriminate|split; reflexivity].
Qed.
Print Assumptions C49_order_lost_refuted.
(** C49 refuted: if a space is labelled by the separator, terms of different kind can share a key. *)
Definition ex_bar := fst (reg_step reset_space (CAdd "|"%char Fermion Occupied [] [])).
Theorem C49_separator_refuted : exists st x y, reachable st /\ registered_ops st [x; y] /\ key_of st x = key_of st y /\
  in_space (creators (tm_ops (fst x))) 0 <> in_space (creators (tm_ops (fst y))) 0.
Proof.
  exists ex_bar, (mkTerm false [mkSQ true (mkI 0 0)] [], mkR 1 1), (mkTerm false [mkSQ false (mkI 0 0)] [], mkR 1 1).
  split; [apply (RS reset_space (CAdd "|"%char Fermion Occupied [] [])); [constructor|reflexivity]|]. split; [|split; [reflexivity|discriminate]].
  intros x o [<-|[<-|[]]] [<-|[]]; cbn; unfold num_spaces; cbn; lia.
Qed.
Print Assumptions C49_separator_refuted.

(** C50: each tensor gets one letter per index, and two slots (of any two tensors of the equation) have the same letter iff they
    carry the same index. *)
Theorem C50_letters : forall st rhs lhs ins out d, reachable st -> names_ok st ->
  (forall t, In t (lhs :: rhs) -> forall i, In i (slots_of t) -> 0 <= isp i < num_spaces st) ->
  einsum_indices st rhs lhs = Ok (ins, out) ->
  map (@length _) (ins ++ [out]) = map (fun t => length (slots_of t)) (rhs ++ [lhs]) /\ Forall is_letter (concat (ins ++ [out])) /\
  forall i j, (i < length (flat_map slots_of (rhs ++ [lhs])))%nat -> (j < length (flat_map slots_of (rhs ++ [lhs])))%nat ->
    (nth i (concat (ins ++ [out])) zero = nth j (concat (ins ++ [out])) zero <-> nth i (flat_map slots_of (rhs ++ [lhs])) d = nth j (flat_map slots_of (rhs ++ [lhs])) d).
Proof. exact einsum_same. Qed.
Print Assumptions C50_letters.
(** C50: it succeeds if at most 52 different indices occur, and is undefined behaviour otherwise. *)
Theorem C50_limit : forall st rhs lhs, reachable st -> names_ok st ->
  (forall t, In t (lhs :: rhs) -> forall i, In i (slots_of t) -> 0 <= isp i < num_spaces st) ->
  if (length (nodup index_dec (flat_map slots_of (rhs ++ [lhs]))) <=? 52)%nat then exists r, einsum_indices st rhs lhs = Ok r else einsum_indices st rhs lhs = UB.
Proof. exact einsum_52. Qed.
Print Assumptions C50_limit.

Definition ex_T := mkT ["T"%char] [mkI 0 0; mkI 0 2] [mkI 1 0; mkI 1 7] Antisymmetric false.
Definition ex_V := mkT ["V"%char] [mkI 1 7; mkI 1 0] [mkI 0 2; mkI 0 3] Antisymmetric false.
Definition ex_R := mkT ["R"%char] [mkI 0 0] [mkI 0 3] Antisymmetric false.
Example C49_nonvacuous : to_manybody ex_st2 ["R"%char] [(mkTerm false [] [ex_T], mkR 1 2); (mkTerm false [mkSQ true (mkI 1 0); mkSQ false (mkI 0 0)] [ex_V], mkR (-1) 4)] =
  Ok [(["o"; "|"; "v"]%char, [mkEq (mkTerm false [] [mkT ["R"%char] [mkI 1 0] [mkI 0 0] Antisymmetric false]) (mkTerm false [] [ex_V]) (mkR (-1) 4)]);
      (["|"]%char, [mkEq (mkTerm false [] [mkT ["R"%char] [] [] Antisymmetric false]) (mkTerm false [] [ex_T]) (mkR 1 2)])].
Proof. vm_compute. reflexivity. Qed.
Example C49_nonvacuous_key : label_to_space ex_st2 "|" = Throw /\ cre_first [mkSQ true (mkI 1 0); mkSQ false (mkI 0 0)].
Proof. split; [reflexivity|]. exists 1%nat. split; reflexivity. Qed.
Example C50_nonvacuous : einsum_indices ex_st2 [ex_T; ex_V] ex_R = Ok ([["a"; "b"; "i"; "c"]%char; ["c"; "d"; "b"; "a"]%char], ["d"; "i"]%char) /\ names_ok ex_st2.
Proof. split; [vm_compute; reflexivity|exact (proj1 C54_nonvacuous)]. Qed.
Example C50_string : compile_einsum (fun _ => ["2"%char]) ex_st2 (mkEq (mkTerm false [] [ex_R]) (mkTerm false [] [ex_T; ex_V]) (mkR 2 1)) =
  Ok (str "Roo += 2 * np.einsum(""abic,cdba->di"",T[""vvoo""],V[""oovv""],optimize=""optimal"")"%string).
Proof. vm_compute. reflexivity. Qed.
Example C50_overflow : einsum_indices ex_st2 [mkT ["T"%char] (map (mkI 0) (map Z.of_nat (seq 0 53))) [] Antisymmetric false] (mkT ["R"%char] [] [] Antisymmetric false) = UB.
Proof. vm_compute. reflexivity. Qed.
