(** C71: what [contract] prints (set_print levels). *)
From Coq Require Import String.
From Coq Require Import ZArith List Bool Ascii Lia.
From Verif Require Import Res PartitionsModel RegistryModel CoreModel RationalModel AlgebraModel OperatorModel SortSpec CanonModel WickSearchModel WickSearchSpec WickEvalModel WickLegSpec WickSearchProps RegistryProps TextSpec ContractShapeProps
  DecModel TextModel ExprTextModel EquationModel OpTextModel TraceModel TraceSpec TraceProofs3 TraceProofs6 TraceProofs7 TraceExample.
Import ListNotations.
Local Open Scope Z_scope.

(** Printing never changes what is computed: for every print level the possible outcomes, failures included, are those of the call without
    printing.  In particular no text asked for by a level fails to be computed. *)
Theorem C71_result : forall o st factor ops minrank maxrank, ops_ok st ops -> forall print r,
  contract o st factor ops minrank maxrank r <-> exists r', contract_printed print o st factor ops minrank maxrank r' /\ result_of r' = r.
Proof. exact printed_result. Qed.
Print Assumptions C71_result.
(** The level None (0) prints nothing. *)
Theorem C71_none : forall o st factor ops minrank maxrank, ops_ok st ops -> forall print e t, print <= 0 ->
  contract_printed print o st factor ops minrank maxrank (Ok (e, t)) -> t = [].
Proof. exact printed_none. Qed.
Print Assumptions C71_none.
(** A higher level prints the text of a lower level with parts inserted. *)
Theorem C71_levels : forall o st factor ops minrank maxrank, ops_ok st ops -> forall p q e t, p <= q ->
  contract_printed p o st factor ops minrank maxrank (Ok (e, t)) -> exists t', contract_printed q o st factor ops minrank maxrank (Ok (e, t')) /\ sublist t t'.
Proof. exact printed_levels. Qed.
Print Assumptions C71_levels.
(** The level Basic: for each composite contraction, numbered from 1, its rank and its drawing. *)
Theorem C71_basic : forall o st factor ops minrank maxrank, ops_ok st ops -> forall e t, contract_printed Basic o st factor ops minrank maxrank (Ok (e, t)) ->
  exists els cvs ps, worked_out o st factor ops minrank maxrank els cvs ps e /\ t = concat (numbered (basic_piece st els ops) 1 (combine cvs ps)).
Proof. exact printed_basic. Qed.
Print Assumptions C71_basic.
(** The level Summary: the operators, the elementary contractions, the composite contractions, and for each of them the drawing, the
    factors and the term. *)
Theorem C71_summary : forall o st factor ops minrank maxrank, ops_ok st ops -> forall e t, contract_printed Summary o st factor ops minrank maxrank (Ok (e, t)) ->
  exists els cvs ps lst, worked_out o st factor ops minrank maxrank els cvs ps e /\ listing st 0 els lst /\
    t = opening st ops ++ lst ++ composites st els ops cvs ++ step3_title ++ concat (numbered (summary_piece st factor els ops) 1 (combine cvs ps)) ++ no_contractions cvs.
Proof. exact printed_summary. Qed.
Print Assumptions C71_summary.
(** The coefficient shown with a term is not the coefficient the term has in the result: here 4 instead of 2. *)
Theorem C71_term_refuted : exists o st factor ops e t, ops_ok st ops /\ contract_printed Summary o st factor ops 0 0 (Ok (e, t)) /\
  (exists x, e = [(x, rat_of_Z 2)] /\ Term_str st (rat_of_Z 2) x = Ok (str "2 F^{v0}_{o0} T^{o0}_{v0}")) /\
  exists t', t = t' ++ nl ++ str "    term: 4 F^{v0}_{o0} T^{o0}_{v0}" ++ nl.
Proof.
  exact (ex_intro _ _ (ex_intro _ _ (ex_intro _ _ (ex_intro _ _ (ex_intro _ _ (ex_intro _ _ (conj cs_ok (conj cs_printed
    (conj (ex_intro _ cs_t (conj eq_refl eq_refl)) (ex_intro _ cs_before eq_refl)))))))))).
Qed.
Print Assumptions C71_term_refuted.
(** The only composite contraction is numbered 2 in step 2 and 1 in step 3; it is made of the elementary contractions listed as 1 and 2
    but shown as 0 and 1. *)
Theorem C71_numbering_refuted : exists o st factor ops e a b c d, ops_ok st ops /\ contract_printed Summary o st factor ops 0 0 (Ok (e, a ++ b ++ c ++ d)) /\
  (exists a1 a2, a = a1 ++ str "        1: [o+,o]" ++ nl ++ str "  Elementary contractions for space v: " ++ nl ++ str "        2: [v,v+]" ++ a2) /\
  b = nl ++ str "      2      0       0   1                " ++ nl ++ nl ++ str "    Total contractions: 1" ++ nl /\
  exists c1, c = c1 ++ str "  Contraction: 1  Operator rank: 0".
Proof. exact cs_numbering. Qed.
Print Assumptions C71_numbering_refuted.
(** One call and the text it prints ([cs_before], TraceExample). *)
Example C71_nonvacuous : ops_ok ex_st2 cs_ops /\
  contract_printed Summary (mkWT 100 false) ex_st2 (rat_of_Z 2) cs_ops 0 0 (Ok ([(cs_t, rat_of_Z 2)], cs_before ++ cs_last)) /\ (1000 < length cs_before)%nat.
Proof. split; [apply cs_ok|]. split; [apply cs_printed|]. apply Nat.ltb_lt. vm_compute. reflexivity. Qed.
