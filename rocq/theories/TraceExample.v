(** C71: the transcript of one call. *)
From Coq Require Import String.
From Coq Require Import ZArith List Bool Arith Ascii Lia.
From Verif Require Import Res PartitionsModel RegistryModel CoreModel RationalModel AlgebraModel OperatorModel SortSpec CanonModel WickSearchModel WickSearchSpec WickEvalModel WickSearchProps RegistryProps TextSpec ContractShapeProps DecModel TextModel EquationModel TraceModel TraceSpec.
Import ListNotations.
Local Open Scope Z_scope.
Definition cs_events : list event :=
  match search_traced 5 (mkWT 100 false) ex_st2 cs_ops 0 0 with
  | Ok (_, _, ev) => ev | _ => [] end.
Definition cs_els : list econ := [[ws_gm [(1, 0)]; ws_gm [(0, 1)]]; [ws_gm [(0, 0); (0, 1)]; ws_gm [(0, 0); (1, 0)]]].
Definition cs_ev : list event := match eval_traced ex_st2 cs_ops cs_els (rat_of_Z 2) with Ok (_, ev) => ev | _ => [] end.
(** The text shown at the level Summary, ... *)
Definition cs_before : text := str "
Contracting the operators:  F { o+ v } T { v+ o }

- Step 1. Generating elementary contractions

  Operator   Space   Cre.   Ann.
  ------------------------------
      0        o      1      0
      0        v      0      1
      1        o      0      1
      1        v      1      0

  Elementary contractions for space o: 
        1: [o+,o]
  Elementary contractions for space v: 
        2: [v,v+]
- Step 2. Generating composite contractions

    Contractions found by backtracking:

      N   Op. Rank  Elementary      Uncontracted operators
                    Contractions 
    ----------------------------------------------------------
      2      0       0   1                

    Total contractions: 1

- Step 3. Processing contractions


  Contraction: 1  Operator rank: 0
           ┌────────┐ 
              ┌──┐ 
  type     +  -  +  - 
  indices o0 v0 v1 o1 
  order    0  3  2  1

          ─┰──┸───────── F^{v0}_{o0}
          ───────┰──┸─── T^{o1}_{v1}

  sign =                 1
  factor =               rational(2,1)
  combinatorial factor = rational(1,1)
".
(** ... and its last line. *)
Definition cs_last : text := str "
    term: 4 F^{v0}_{o0} T^{o0}_{v0}
".
Lemma cs_printed : contract_printed Summary (mkWT 100 false) ex_st2 (rat_of_Z 2) cs_ops 0 0 (Ok ([(cs_t, rat_of_Z 2)], cs_before ++ cs_last)).
Proof.
  set (o := mkWT 100 false). assert (S : search_traced 5 o ex_st2 cs_ops 0 0 = Ok (cs_els, [[0; 1]], cs_events)) by (vm_compute; reflexivity).
  set (ev := (Basic, Ok (header 1 0)) :: cs_ev ++ [(Summary, Ok (term_text ex_st2 (rat_of_Z 4) cs_t))]).
  exists 5%nat, (Ok ([(cs_t, rat_of_Z 2)], cs_events ++ (step3_head :: ev))). split; [|split].
  - unfold traced_run. rewrite S. exists (Ok ([(cs_t, rat_of_Z 2)], step3_head :: ev)). split; [|reflexivity].
    exists 1, (Ok ([(cs_t, rat_of_Z 2)], step3_head :: ev)). split; [|vm_compute; reflexivity].
    assert (H : single_traced o ex_st2 cs_els cs_ops (rat_of_Z 2) 0 0 0 [0; 1] (Ok ([(cs_t, rat_of_Z 2)], ev))).
    { unfold single_traced. exists cs_ops, cs_els, 1, (Ok (cs_t, 1)), []. split; [split; reflexivity|]. split; [|vm_compute; reflexivity].
      intros t f ev' H. vm_compute in H. injection H as <- <- _.
      destruct (mapM (tensor_score ex_st2 (tm_tens cs_t)) (tm_tens cs_t)) as [sc| | |] eqn:E; try discriminate E.
      exists (tm_tens cs_t). split; [|vm_compute; reflexivity]. exists sc, sc. split; [exact E|]. split; [reflexivity|]. vm_compute in E. injection E as <-. split; [|reflexivity]. unfold ordered. repeat constructor. }
    apply (rt_cons o ex_st2 cs_els cs_ops (rat_of_Z 2) 0 0 0 [] [step3_head] [0; 1] [] _ ev 1 _ H). apply rt_nil.
  - rewrite S. discriminate.
  - vm_compute. reflexivity.
Qed.
Lemma cut_text (P : text -> Prop) (full x1 x2 x3 b w3 : text) (n1 n2 n3 n4 : nat) : P full ->
  full = (firstn n1 full ++ x1 ++ nl ++ x2 ++ nl ++ x3 ++ firstn n2 (skipn (n1 + length (x1 ++ nl ++ x2 ++ nl ++ x3)) full)) ++ b ++ (firstn n3 (skipn (n1 + length (x1 ++ nl ++ x2 ++ nl ++ x3) + n2 + length b) full) ++ w3) ++ skipn n4 full ->
  exists a c d, P (a ++ b ++ c ++ d) /\ (exists a1 a2, a = a1 ++ x1 ++ nl ++ x2 ++ nl ++ x3 ++ a2) /\ exists c1, c = c1 ++ w3.
Proof. intros H X. rewrite X in H. do 3 eexists. split; [exact H|]. split; [do 2 eexists; reflexivity|eexists; reflexivity]. Qed.
Lemma cs_numbering : exists o st factor ops e a b c d, ops_ok st ops /\ contract_printed Summary o st factor ops 0 0 (Ok (e, a ++ b ++ c ++ d)) /\
  (exists a1 a2, a = a1 ++ str "        1: [o+,o]" ++ nl ++ str "  Elementary contractions for space v: " ++ nl ++ str "        2: [v,v+]" ++ a2) /\
  b = nl ++ str "      2      0       0   1                " ++ nl ++ nl ++ str "    Total contractions: 1" ++ nl /\
  exists c1, c = c1 ++ str "  Contraction: 1  Operator rank: 0".
Proof.
  destruct (cut_text (fun t => contract_printed Summary (mkWT 100 false) ex_st2 (rat_of_Z 2) cs_ops 0 0 (Ok ([(cs_t, rat_of_Z 2)], t))) (cs_before ++ cs_last)
    (str "        1: [o+,o]") (str "  Elementary contractions for space v: ") (str "        2: [v,v+]") (nl ++ str "      2      0       0   1                " ++ nl ++ nl ++ str "    Total contractions: 1" ++ nl)
    (str "  Contraction: 1  Operator rank: 0") 329%nat 242%nat 37%nat 788%nat cs_printed) as (a & c & d & H & A & C); [vm_compute; reflexivity|].
  exists (mkWT 100 false), ex_st2, (rat_of_Z 2), cs_ops, [(cs_t, rat_of_Z 2)], a, (nl ++ str "      2      0       0   1                " ++ nl ++ nl ++ str "    Total contractions: 1" ++ nl), c, d.
  exact (conj cs_ok (conj H (conj A (conj eq_refl C)))).
Qed.
