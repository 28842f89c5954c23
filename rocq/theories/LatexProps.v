(** C62: LaTeX output. *)
From Coq Require Import String ZArith List Bool Ascii Lia.
From Verif Require Import Res RegistryModel RegistryProofs RegistryProps CoreModel RationalModel RationalSpec AlgebraModel DecModel TextModel TextSpec ExprTextModel LatexModel LatexSpec LatexProofs LatexProofs2 LatexProofs3.
Import ListNotations.
Local Open Scope Z_scope.

(** C62: the output, read with the usual conventions, is the expression: the same terms in the same order with the same coefficients,
    up to what LaTeX does not show. *)
Theorem C62_meaning : forall boost st e sep s, Forall (fun x => canonical (snd x) /\ num (snd x) <> 0) e -> expr_latex boost st e sep = Ok s ->
  exists e', Forall2 shown_entry e e' /\ reads_expr st sep s e'.
Proof. exact expr_latex_reads. Qed.
Print Assumptions C62_meaning.
(** C62: one term, without its coefficient. *)
Theorem C62_term_meaning : forall st t s, term_latex st t = Ok s -> exists t', shown_term t t' /\ reads_term st s t'.
Proof. exact term_latex_reads. Qed.
Print Assumptions C62_term_meaning.
(** C62: there is at most one way to read a line or a multi-line output. *)
Theorem C62_term_unambiguous : forall st s t1 t2, reachable st -> readable_names st -> reads_term st s t1 -> reads_term st s t2 -> t1 = t2.
Proof. exact (fun st s t1 t2 R N => term_unique st R N s t1 t2). Qed.
Print Assumptions C62_term_unambiguous.
Theorem C62_unambiguous : forall st sep s e1 e2, reachable st -> readable_names st -> line_sep sep -> reads_expr st sep s e1 -> reads_expr st sep s e2 -> e1 = e2.
Proof. exact (fun st sep s e1 e2 R N => expr_unique st R N sep s e1 e2). Qed.
Print Assumptions C62_unambiguous.
(** C62: hence expressions with the same output agree in all that is shown, and are equal ([==]) if the labels are telling. *)
Theorem C62_faithful : forall st sep b1 b2 e1 e2 s, reachable st -> readable_names st -> line_sep sep ->
  Forall (fun x => canonical (snd x) /\ num (snd x) <> 0) e1 -> Forall (fun x => canonical (snd x) /\ num (snd x) <> 0) e2 ->
  expr_latex b1 st e1 sep = Ok s -> expr_latex b2 st e2 sep = Ok s -> exists e', Forall2 shown_entry e1 e' /\ Forall2 shown_entry e2 e'.
Proof. exact latex_faithful. Qed.
Print Assumptions C62_faithful.
Theorem C62_equal : forall st sep b1 b2 e1 e2 s, reachable st -> readable_names st -> line_sep sep ->
  Forall (fun x => canonical (snd x) /\ num (snd x) <> 0 /\ Forall telling_label (tm_tens (fst x))) e1 ->
  Forall (fun x => canonical (snd x) /\ num (snd x) <> 0 /\ Forall telling_label (tm_tens (fst x))) e2 ->
  expr_latex b1 st e1 sep = Ok s -> expr_latex b2 st e2 sep = Ok s -> mequal term_eqb e1 e2 = true.
Proof. exact latex_equal. Qed.
Print Assumptions C62_equal.
(** C62: for indices of registered spaces the output exists if every label is letters, underscore, digits; else an exception. *)
Theorem C62_defined : forall st b e sep, Forall (fun x => registered_term st (fst x)) e -> Forall (fun x => Forall (fun x => good_label (t_label x)) (tm_tens (fst x))) e ->
  exists s, expr_latex b st e sep = Ok s.
Proof. exact expr_def. Qed.
Print Assumptions C62_defined.
Theorem C62_throws : forall st b e sep, Forall (fun x => registered_term st (fst x)) e -> Exists (fun x => Exists (fun x => ~ good_label (t_label x)) (tm_tens (fst x))) e ->
  expr_latex b st e sep = Throw.
Proof. exact expr_throw. Qed.
Print Assumptions C62_throws.

(** ** What is lost *)
Definition lx_t (label : string) : tensor := mkT (lit label) [mkI 0 0] [mkI 1 0] Antisymmetric false.
(** The number of a Greek letter. *)
Theorem C62_greek_refuted : exists t1 t2, tensor_eqb t1 t2 = false /\ tensor_latex ex_st2 t1 = Ok (lit "{\lambda}^{a}_{i}") /\ tensor_latex ex_st2 t2 = Ok (lit "{\lambda}^{a}_{i}").
Proof. exists (lx_t "lambda2"), (lx_t "lambda3"). repeat split; reflexivity. Qed.
Print Assumptions C62_greek_refuted.
(** The underscore of a label. *)
Theorem C62_underscore_refuted : exists t1 t2, tensor_eqb t1 t2 = false /\ tensor_latex ex_st2 t1 = Ok (lit "{T_{1}}^{a}_{i}") /\ tensor_latex ex_st2 t2 = Ok (lit "{T_{1}}^{a}_{i}").
Proof. exists (lx_t "T1"), (lx_t "T_1"). repeat split; reflexivity. Qed.
Print Assumptions C62_underscore_refuted.
(** Bosons are written as a in the compact form, as b elsewhere. *)
Definition lx_bos := CAdd "x"%char Boson Unoccupied [lit "i"] [].
Definition lx_bst := fst (reg_step reset_space lx_bos).
Theorem C62_boson_refuted : exists st q, reachable st /\ sqop_latex st q = Ok (lit "\hat{b}^{i}") /\ term_latex st (mkTerm false [q] []) = Ok (lit "\hat{a}^{i}_{}").
Proof. exists lx_bst, (mkSQ true (mkI 0 0)). split; [apply (RS reset_space lx_bos); [constructor|reflexivity]|split; reflexivity]. Qed.
Print Assumptions C62_boson_refuted.
(** The number 1 is printed as a sign with nothing after it. *)
Theorem C62_unit_refuted : forall boost st sep, expr_latex boost st [(mkTerm false [] [], mkR 1 1)] sep = Ok (lit "+ ") /\ expr_latex boost st [(mkTerm false [] [], mkR (-1) 1)] sep = Ok (lit "- ").
Proof. intros. split; reflexivity. Qed.
Print Assumptions C62_unit_refuted.
(** In the build without boost a later term with a positive integer coefficient has no plus sign. *)
Theorem C62_plus_refuted : exists e, expr_latex true ex_st2 e (lit " ") = Ok (lit "+ {T}^{a}_{i} +2 {U}^{a}_{i}") /\ expr_latex false ex_st2 e (lit " ") = Ok (lit "+ {T}^{a}_{i} 2 {U}^{a}_{i}").
Proof. exists [(mkTerm false [] [lx_t "T"], mkR 1 1); (mkTerm false [] [lx_t "U"], mkR 2 1)]. split; reflexivity. Qed.
Print Assumptions C62_plus_refuted.
(** Names with a space can make two terms look the same. *)
Definition lx_sp := CAdd "o"%char Fermion Occupied [lit "i"; lit "j"; lit "i j"] [].
Definition lx_sst := fst (reg_step reset_space lx_sp).
Theorem C62_names_refuted : exists st t1 t2 s, reachable st /\ tensor_eqb t1 t2 = false /\ tensor_latex st t1 = Ok s /\ tensor_latex st t2 = Ok s.
Proof.
  exists lx_sst, (mkT (lit "T") [] [mkI 0 0; mkI 0 1] Antisymmetric false), (mkT (lit "T") [] [mkI 0 2] Antisymmetric false), (lit "{T}^{i j}_{}").
  split; [apply (RS reset_space lx_sp); [constructor|reflexivity]|]. repeat split; reflexivity.
Qed.
Print Assumptions C62_names_refuted.

(** ** A case *)
Definition lx_e : expression :=
  [(mkTerm false [] [lx_t "T"], mkR (-3) 2);
   (mkTerm true [mkSQ true (mkI 1 0); mkSQ true (mkI 1 1); mkSQ false (mkI 0 1); mkSQ false (mkI 0 0)] [mkT (lit "T2") [mkI 0 0; mkI 0 1] [mkI 1 0; mkI 1 1] Antisymmetric false], mkR 1 4);
   (mkTerm false [mkSQ false (mkI 0 0); mkSQ true (mkI 0 5)] [mkT (lit "gamma1") [mkI 0 5] [mkI 0 0] Antisymmetric false], mkR 2 1)].
Lemma lx_names : readable_names ex_st2.
Proof.
  split.
  - intros sp names y H Hy. unfold space_indices, PartitionsModel.aget in H. destruct (Z.ltb sp 0); [discriminate|].
    destruct (Z.to_nat sp) as [|[|[|n]]]; cbn in H; try discriminate; injection H as <-; cbn [In] in Hy; destruct Hy as [<-|[<-|[]]];
      (split; [intros (s & l & p & _ & E); discriminate E|split; [discriminate|split; [reflexivity|repeat constructor]]]).
  - intros sp l H. unfold space_label, PartitionsModel.aget in H. destruct (Z.ltb sp 0); [discriminate|]. destruct (Z.to_nat sp) as [|[|[|n]]]; cbn in H; try discriminate; injection H as <-; repeat split; discriminate.
Qed.
Example C62_nonvacuous : reachable ex_st2 /\ readable_names ex_st2 /\ line_sep latex_sep /\
  Forall (fun x => canonical (snd x) /\ num (snd x) <> 0 /\ Forall telling_label (tm_tens (fst x))) lx_e /\
  expr_latex true ex_st2 lx_e latex_sep = Ok (lit "-\frac{3}{2} {T}^{a}_{i}" ++ latex_sep ++ lit "+\frac{1}{4} {T_{2}}^{a b}_{i j} \{ \hat{a}^{a b}_{i j} \}" ++ latex_sep ++
    lit "+2 {\gamma}^{i}_{o_{5}} \hat{a}_{i} \hat{a}^{o_{5}}").
Proof.
  split; [apply C10_nonvacuous|]. split; [apply lx_names|]. split; [exists (lit " \\ "); split; [reflexivity|cbn; intros H; decompose [or False] H; discriminate]|]. split; [|reflexivity].
  assert (D : forall c, is_digit c = true -> all_of is_digit [c]) by (intros; repeat constructor; auto).
  repeat (constructor; [split; [split; [cbn; lia|reflexivity]|split; [cbn; lia|]]|]); [| | |constructor]; (constructor; [|constructor]).
  - exists (lit "T"), []. repeat split; try discriminate; repeat constructor.
  - exists (lit "T"), (lit "2"). repeat split; try discriminate; repeat constructor.
  - exists (lit "gamma"), (lit "1"). repeat split; try discriminate; repeat constructor.
Qed.
Example C62_throws_nonvacuous : ~ good_label (lit "T2a") /\ expr_latex true ex_st2 [(mkTerm false [] [lx_t "T2a"], mkR 1 1)] latex_sep = Throw.
Proof.
  split; [|reflexivity]. intros (s & u & d & E & N & A & Hu & D). destruct (label_latex_def (lit "T2a")) as (x & X); [exists s, u, d; auto 6|]. discriminate X.
Qed.
